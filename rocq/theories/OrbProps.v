(** Orbits for Weyl groups: properties of the code in sources/structure/rootdata.cpp. *)

From Coq Require Import List Arith ZArith Bool Lia Permutation.
From Verif Require Import VecModel VecProofs RunModel RunProofs MatModel MatSpec MatLin MatProofs MatProps RedSpec LieTypeSpec RootModel RootSpec RootBase RootMath RootForm RootFin RootCo RootUniq
  RootAcc RootSys RootExt RootPerm RootTop RootProps DatModel DatSpec DatMath DatProofs DatOps DatFactor DatProps DatProps2 RsfBase OrbModel OrbMath OrbRun OrbExt OrbIter OrbWall.
Import ListNotations.
Local Open Scope Z_scope.

(** [O] lists, without repetition, the images of [v] for words in [n] reflections *)
Definition orbit_list (r n : nat) (al be : nat -> list Z) (v : list Z) (O : list (list Z)) : Prop :=
  NoDup O /\ forall x, In x O <-> exists w, word n w /\ x = act_by r al be w v.

Lemma inq_seq n k : inq (fun x => x) (seq 0 n) k <-> (k < n)%nat.
Proof. unfold inq. split; [intros (x & I & <-); apply in_seq in I; lia|]. intros H. exists k. split; [apply in_seq; lia|reflexivity]. Qed.
Lemma reached_seq r n al be v O : reached r al be (fun x => x) v (seq 0 n) O -> orbit_list r n al be v O.
Proof.
  intros (N & H). split; [exact N|]. intros x. rewrite H. split; intros (w & F & E); exists w; (split; [|exact E]); (eapply Forall_impl; [|exact F]); intros k; apply inq_seq.
Qed.
Lemma orbit_moved r n al be C v u O ww : (forall i, (i < n)%nat -> length (al i) = r) -> (forall i j, (i < n)%nat -> (j < n)%nat -> dot r (al i) (be j) = C i j) -> good n C -> length v = r ->
  word n ww -> act_by r al be ww v = u -> orbit_list r n al be u O -> orbit_list r n al be v O.
Proof.
  intros La HC gd Lv F E (N & H). split; [exact N|]. intros x. rewrite H. split; intros (w & Fw & ->).
  - exists (w ++ ww). split; [apply Forall_app; split; assumption|]. rewrite act_app, E. reflexivity.
  - exists (w ++ rev ww). split; [apply Forall_app; split; [exact Fw|apply Forall_rev, F]|]. rewrite act_app, <- E. f_equal. symmetry. apply (rev_act r n al be C La HC gd ww v F Lv).
Qed.
Lemma bmem_map_negb (b : bset) k : (k < length b)%nat -> bmem (map negb b) k = negb (bmem b k).
Proof. intros H. unfold bmem. rewrite (nth_indep (map negb b) false (negb false)) by (rewrite map_length; exact H). apply map_nth. Qed.
Lemma members_nodup (b : bset) : NoDup (members b). Proof. apply NoDup_filter, seq_NoDup. Qed.
Lemma stab_run fits r n (be : nat -> list Z) u (cb : nat -> res (list Z)) : length u = r -> (forall s, (s < n)%nat -> length (be s) = r) -> (forall s, (s < n)%nat -> cb s = Ok (be s)) ->
  gives (stab_bits fits cb n u) (fun b => length b = n /\ forall s, (s < n)%nat -> bmem b s = (dot r u (be s) =? 0)) (overflows fits).
Proof.
  intros Lu Lb H. unfold stab_bits. apply (gives_upto0 (fun k b => length b = n /\ forall s, (s < k)%nat -> bmem b s = (dot r u (be s) =? 0))).
  - split; [apply repeat_length|intros; lia].
  - intros k b Hk (L & M). rewrite (H k Hk). cbn [bind]. eapply gives_bind; [apply (dot_into_run fits r); auto|]. intros c <-. rewrite dot_comm. destruct (bmem_put b k (dot r u (be k) =? 0) ltac:(lia)) as (b' & -> & L' & M'). split; [lia|]. intros s Hs. rewrite M'. destruct (Nat.eqb_spec s k) as [->|Q]; [reflexivity|]. apply M. lia.
  - intros b X. exact X.
Qed.
Lemma costab_run fits r n (be : nat -> list Z) u (cb : nat -> res (list Z)) : length u = r -> (forall s, (s < n)%nat -> length (be s) = r) -> (forall s, (s < n)%nat -> cb s = Ok (be s)) ->
  gives (upto n 0 (fun s b => run y <- cb s; run c <- dot_into fits (fun z => z) u y; vput b s (c =? 0)%Z) (repeat false n)) (fun b => length b = n /\ forall s, (s < n)%nat -> bmem b s = (dot r u (be s) =? 0)) (overflows fits).
Proof.
  intros Lu Lb H. apply (gives_upto0 (fun k b => length b = n /\ forall s, (s < k)%nat -> bmem b s = (dot r u (be s) =? 0))).
  - split; [apply repeat_length|intros; lia].
  - intros k b Hk (L & M). rewrite (H k Hk). cbn [bind]. eapply gives_bind; [apply (dot_into_run fits r); auto|]. intros c <-. destruct (bmem_put b k (dot r u (be k) =? 0) ltac:(lia)) as (b' & -> & L' & M'). split; [lia|]. intros s Hs. rewrite M'. destruct (Nat.eqb_spec s k) as [->|Q]; [reflexivity|]. apply M. lia.
  - intros b X. exact X.
Qed.

Section Runs.
Variable fits : Z -> bool.
Notation E := (overflows fits).
Variables (r n : nat) (al be : nat -> list Z) (C : nat -> nat -> Z).
Hypothesis La : forall i, (i < n)%nat -> length (al i) = r.
Hypothesis Lb : forall i, (i < n)%nat -> length (be i) = r.
Hypothesis HC : forall i j, (i < n)%nat -> (j < n)%nat -> dot r (al i) (be j) = C i j.
Hypothesis gd : good n C.
Hypothesis gd' : good n (flip C).
Variable P : list (list Z).
Hypothesis PN : NoDup P.
Hypothesis PU : forall w, In w P <-> up n (flip C) w.
Variables ra cb : nat -> res (list Z).
Hypothesis ra_ok : forall x, (x < n)%nat -> ra x = Ok (al x).
Hypothesis cb_ok : forall x, (x < n)%nat -> cb x = Ok (be x).
Variable refl : nat -> list Z -> res (list Z).
Hypothesis refl_ok : forall x v, (x < n)%nat -> length v = r -> gives (refl x v) (eq (reflect_at r (al x) (be x) v)) E.
Variable fund : list (list Z).
Variable den : Z.
Hypothesis den_pos : 0 < den.
Hypothesis fund_ok : forall i, (i < n)%nat -> exists w, get fund i = Some w /\ length w = r /\ forall j, (j < n)%nat -> dot r w (be j) = den * delta i j.
Lemma simple_orbit v stab : length v = r -> dominant r n be v -> length stab = n -> (forall s, (s < n)%nat -> bmem stab s = (dot r v (be s) =? 0)) ->
  gives (extend_simple fits ra cb refl (S (length P)) fund (members (map negb stab)) stab [v]) (orbit_list r n al be v) E.
Proof.
  intros Lv Dv Ls Bs. rewrite simple_all. eapply gives_mono; [|intros O; apply reached_seq].
  assert (Hin : forall x, In x (seq 0 n) <-> (x < n)%nat) by (intros x; rewrite in_seq; lia).
  apply (extend_all_run fits r n al be C La Lb HC gd gd' P PN PU (fun x => x) n (seq 0 n)); auto; try (intros x Ix; apply Hin in Ix; auto); try (intros x y Ix; apply Hin in Ix; auto).
  - intros st i Lst _ Ii Ni. apply Hin in Ii. destruct (fund_ok i Ii) as (w & G & Lw & W). rewrite (vget_ok _ _ _ G). cbn [gives]. split; [exact Lw|]. split; [rewrite (W i Ii); unfold delta; rewrite Nat.eqb_refl; lia|].
    intros x Ix. assert (Hx : (x < n)%nat). { apply members_in in Ix. destruct (le_lt_dec n x) as [Q|Q]; [rewrite bmem_over in Ix by lia; discriminate|exact Q]. } rewrite (W x Hx). unfold delta. destruct (Nat.eqb_spec i x) as [->|_]; [contradiction|]. lia.
  - intros x. rewrite members_in, Hin. split.
    + intros M. assert (Hx : (x < n)%nat) by (destruct (le_lt_dec n x) as [Q|Q]; [rewrite bmem_over in M by lia; discriminate|exact Q]). split; [exact Hx|]. rewrite (Bs x Hx) in M. apply Z.eqb_eq. exact M.
    + intros (Hx & Z0). rewrite (Bs x Hx). apply Z.eqb_eq. exact Z0.
  - intros x. rewrite members_in, Hin. split.
    + intros M. assert (Hx : (x < n)%nat) by (destruct (le_lt_dec n x) as [Q|Q]; [rewrite bmem_over in M by (rewrite map_length; lia); discriminate|exact Q]). split; [exact Hx|]. rewrite bmem_map_negb, (Bs x Hx) in M by lia. apply negb_true_iff in M. apply Z.eqb_neq. exact M.
    + intros (Hx & Z0). rewrite bmem_map_negb, (Bs x Hx) by lia. apply negb_true_iff, Z.eqb_neq. exact Z0.
  - apply members_nodup.
Qed.
End Runs.

(** ** groups generated by the reflections listed *)
Fixpoint index_of (g : list nat) (x : nat) : nat := match g with [] => 0%nat | a :: g' => if Nat.eqb a x then 0%nat else S (index_of g' x) end.
Lemma index_at g x : In x g -> (index_of g x < length g)%nat /\ nth (index_of g x) g 0%nat = x.
Proof.
  induction g as [|a g IH]; [intros []|]. intros I. cbn [index_of]. destruct (Nat.eqb_spec a x) as [Q|Q]; [cbn; split; [lia|exact Q]|]. destruct I as [I|I]; [contradiction|]. destruct (IH I) as [H1 H2]. cbn. split; [lia|exact H2].
Qed.
Lemma index_nth g k : NoDup g -> (k < length g)%nat -> index_of g (nth k g 0%nat) = k.
Proof.
  intros N H. destruct (index_at g (nth k g 0%nat)) as [H1 H2]; [apply nth_In, H|]. apply (proj1 (NoDup_nth g 0%nat) N); assumption.
Qed.
Lemma nodup_snoc (l : list nat) x : NoDup l -> ~ In x l -> NoDup (l ++ [x]).
Proof. intros N H. apply (Permutation_NoDup (l := x :: l)); [apply Permutation_cons_append|]. constructor; assumption. Qed.
Lemma split_run (E : err -> Prop) (val : nat -> res Z) (z : nat -> Z) nr g : NoDup g -> (forall a, In a g -> (a < nr)%nat) -> (forall a, In a g -> gives (val a) (eq (z a)) E) ->
  gives (split_gens val nr g) (fun q => length (fst q) = nr /\ (forall x, In x (members (fst q)) <-> In x g /\ z x = 0) /\ (forall x, In x (snd q) <-> In x g /\ z x <> 0) /\ NoDup (snd q)) E.
Proof.
  intros N Hg Hv. unfold split_gens. apply (gives_upto0 (fun k q => length (fst q) = nr /\ (forall x, In x (members (fst q)) <-> In x (firstn k g) /\ z x = 0) /\ (forall x, In x (snd q) <-> In x (firstn k g) /\ z x <> 0) /\ NoDup (snd q))); cbn [fst snd].
  - split; [apply repeat_length|]. split; [|split; [|constructor]].
    + intros x. rewrite members_in. cbn [firstn In]. split; [|tauto]. unfold bmem. intros Q. exfalso. revert Q. generalize nr at 1. intros m. revert x. induction m as [|m IH]; intros [|x] Q; cbn in Q; try discriminate. apply (IH x Q).
    + intros x. cbn. tauto.
  - intros k [st non] Hk; cbn [fst snd]; intros (Ls & Ms & Mn & Nn). destruct (get_some g k Hk) as [a Ga]. pose proof (get_In _ _ _ Ga) as Ia. rewrite (vget_ok _ _ _ Ga). cbn [bind]. eapply gives_bind; [apply Hv, Ia|]. intros c <-. rewrite (firstn_get g k a Ga).
    assert (Na : ~ In a (firstn k g)). { intros I. destruct (In_get _ _ I) as [q Gq]. pose proof (get_lt _ _ _ Gq) as Hq. rewrite firstn_length in Hq. assert (get g q = Some a). { unfold get in *. rewrite <- (firstn_skipn k g). rewrite nth_error_app1 by (rewrite firstn_length; lia). exact Gq. } assert (q = k); [|lia]. apply (proj1 (NoDup_nth_error g) N); [lia|]. unfold get in *. congruence. }
    destruct (Z.eqb_spec (z a) 0) as [Q|Q].
    + destruct (bmem_put st a true ltac:(rewrite Ls; apply Hg, Ia)) as (st' & -> & L' & M'). apply gives_ok. cbn [fst snd]. split; [lia|]. split; [|split; [|exact Nn]].
      * intros x. rewrite members_in, M', in_app_iff. cbn [In]. destruct (Nat.eqb_spec x a) as [->|X]; [tauto|]. rewrite <- members_in, Ms. intuition congruence.
      * intros x. rewrite Mn, in_app_iff. cbn [In]. split; [tauto|]. intros ([H|[H|[]]] & Nz); [tauto|congruence].
    + apply gives_ok. cbn [fst snd]. split; [exact Ls|]. split; [|split].
      * intros x. rewrite Ms, in_app_iff. cbn [In]. split; [tauto|]. intros ([H|[H|[]]] & Nz); [tauto|congruence].
      * intros x. rewrite !in_app_iff, Mn. cbn [In]. split; [intros [H|[H|[]]]; [tauto|subst x; tauto]|]. intros ([H|[H|[]]] & Nz); [tauto|tauto].
      * apply nodup_snoc; [exact Nn|]. rewrite Mn. tauto.
  - intros [st non]; cbn [fst snd]. rewrite firstn_all. intros H. exact H.
Qed.

Section Gens.
Variable fits : Z -> bool.
Variable as_int : Z -> Z.
Hypothesis int_id : forall z, as_int z = z.
Notation E := (overflows fits).
Variables (r m : nat) (al be : nat -> list Z) (C : nat -> nat -> Z).
Hypothesis La : forall i, (i < m)%nat -> length (al i) = r.
Hypothesis Lb : forall i, (i < m)%nat -> length (be i) = r.
Hypothesis HC : forall i j, (i < m)%nat -> (j < m)%nat -> dot r (al i) (be j) = C i j.
Hypothesis gd : good m C.
Hypothesis gd' : good m (flip C).
Variable P : list (list Z).
Hypothesis PN : NoDup P.
Hypothesis PU : forall w, In w P <-> up m (flip C) w.
Variables (g : list nat) (nr : nat).
Hypothesis Lg : length g = m.
Hypothesis Ng : NoDup g.
Hypothesis gnr : forall a, In a g -> (a < nr)%nat.
Hypothesis Pnr : (length P <= nr)%nat.
Variables ra cb : nat -> res (list Z).
Hypothesis ra_ok : forall x, In x g -> ra x = Ok (al (index_of g x)).
Hypothesis cb_ok : forall x, In x g -> cb x = Ok (be (index_of g x)).
Variable refl : nat -> list Z -> res (list Z).
Hypothesis refl_ok : forall x v, In x g -> length v = r -> gives (refl x v) (eq (reflect_at r (al (index_of g x)) (be (index_of g x)) v)) E.
Lemma gens_orbit v q : length v = r -> dominant r m be v -> length (fst q) = nr -> (forall x, In x (members (fst q)) <-> In x g /\ dot r v (be (index_of g x)) = 0) ->
  (forall x, In x (snd q) <-> In x g /\ dot r v (be (index_of g x)) <> 0) -> NoDup (snd q) ->
  gives (extend_gens fits as_int ra cb refl (S nr) r (snd q) (fst q) [v]) (orbit_list r m al be v) E.
Proof.
  intros Lv Dv Ls Ms Mn Nn. rewrite gens_all.
  assert (ix : forall x, In x g -> (index_of g x < m)%nat) by (intros x Ix; rewrite <- Lg; apply index_at, Ix).
  assert (Inj : forall x y, In x g -> In y g -> index_of g x = index_of g y -> x = y). { intros x y Ix Iy Q. rewrite <- (proj2 (index_at g x Ix)), <- (proj2 (index_at g y Iy)), Q. reflexivity. }
  assert (inw : forall k, inq (index_of g) g k <-> (k < m)%nat). { intros k. split; [intros (x & Ix & <-); apply ix, Ix|]. intros Hk. rewrite <- Lg in Hk. exists (nth k g 0%nat). split; [apply nth_In, Hk|apply index_nth; assumption]. }
  eapply gives_mono; [apply (extend_all_run fits r m al be C La Lb HC gd gd' P PN PU (index_of g) nr g) with (v := v)|]; auto; try lia.
  - intros st i Lst Sl Ii Ni. apply (wall_run fits as_int int_id r m al be C Lb HC gd (index_of g) g ix cb cb_ok (members st) i Sl Ii). intros x Ix Q. apply Ni. rewrite <- (Inj x i (Sl x Ix) Ii Q). exact Ix.
  - intros O (N & H). split; [exact N|]. intros x. rewrite H. split; intros (w & F & Ex); exists w; (split; [|exact Ex]); (eapply Forall_impl; [|exact F]); intros k; apply inw.
Qed.
End Gens.
Lemma listed_nodup g C : (forall i j, (i < length g)%nat -> (j < length g)%nat -> nth i g 0%nat = nth j g 0%nat -> C i j = 2) -> finite_type (length g) C -> NoDup g.
Proof.
  intros H F. apply (NoDup_nth g 0%nat). intros i j Hi Hj Q. destruct (Nat.eq_dec i j) as [X|X]; [exact X|]. exfalso. pose proof (H i j Hi Hj Q) as T. destruct (top_good _ _ F) as [(ca & _) _]. destruct ca as (_ & Off & _). pose proof (Off i j Hi Hj X). lia.
Qed.

(** * C122: the orbit of a weight, and of a coweight, under the Weyl group *)
(** [ws] and [vs] are the fundamental weights and coweights that the code computes for the datum *)
Theorem C122_weights (fits : Z -> bool) (as_int : Z -> Z) (short : Z -> bool) (r n : nat) (A B : nat -> nat -> Z) (p : predatum) (d : datum) (ws vs : list (list Z)) (den : Z) (v : list Z) :
  datum_of fits r n A B p d -> (forall z, as_int z = z) -> fundamental fits as_int short p = Ok (ws, vs, den) -> length v = r ->
  gives (Weyl_orbit fits ws d v) (orbit_list r n (fcol r A) (fcol r B) v) (overflows fits).
Proof.
  intros Dt Hi Ef Lv. pose proof (datum_of_ok _ _ _ _ _ _ _ Dt) as K. pose proof (C114_fundamental fits as_int short r n A B p Hi (proj1 Dt)) as Fu. rewrite Ef in Fu. cbn [gives] in Fu. destruct Fu as ((Dp & _) & _ & _ & Fu).
  destruct (k_good r n A B p d K) as [gd gd']. destruct (pos_ok r n A B p d K) as (_ & PN & _ & PU).
  unfold Weyl_orbit. eapply gives_bind; [apply (C107_to_dominant fits r n A B p d v Dt Lv)|]. intros u (Lu & Du & ww & Fw & Eu).
  rewrite (k_ss r n A B p d K).
  eapply gives_bind; [apply (stab_run fits r n (fcol r B) u); [exact Lu|intros; apply fcol_length|intros s Hs; apply (proj2 (d_simple_run r n A B p d K s Hs))]|]. intros st (Ls & Bs).
  eapply gives_mono; [|intros O; apply (orbit_moved r n (fcol r A) (fcol r B) (fun i j => dot r (fcol r A i) (fcol r B j)) v u O ww); try assumption; try reflexivity; intros; apply fcol_length].
  replace (S (d_npos d)) with (S (length (pos_coroots d))) by (unfold pos_coroots, d_npos; rewrite map_length, seq_length; reflexivity).
  apply (simple_orbit fits r n (fcol r A) (fcol r B) (fun i j => dot r (fcol r A i) (fcol r B j))) with (den := den); try assumption; try reflexivity; try (intros; apply fcol_length).
  - intros x Hx. apply (proj1 (d_simple_run r n A B p d K x Hx)).
  - intros x Hx. apply (proj2 (d_simple_run r n A B p d K x Hx)).
  - intros x w Hx Lw. pose proof (proj1 (simple_run fits r n A B p d K x w 0 Hx Lw)) as Q. rewrite Z.add_0_r in Q. exact Q.
  - intros i Hx. destruct (Fu i Hx) as (w & w' & c & c' & G & _ & -> & _ & H). exists (comb r n (fcol r A) c). split; [exact G|]. split; [apply comb_length|]. intros j Hj. apply H, Hj.
Qed.
Theorem C122_coweights (fits : Z -> bool) (as_int : Z -> Z) (short : Z -> bool) (r n : nat) (A B : nat -> nat -> Z) (p : predatum) (d : datum) (ws vs : list (list Z)) (den : Z) (v : list Z) :
  datum_of fits r n A B p d -> (forall z, as_int z = z) -> fundamental fits as_int short p = Ok (ws, vs, den) -> length v = r ->
  gives (Weyl_coorbit fits vs d v) (orbit_list r n (fcol r B) (fcol r A) v) (overflows fits).
Proof.
  intros Dt Hi Ef Lv. pose proof (datum_of_ok _ _ _ _ _ _ _ Dt) as K. pose proof (C114_fundamental fits as_int short r n A B p Hi (proj1 Dt)) as Fu. rewrite Ef in Fu. cbn [gives] in Fu. destruct Fu as ((Dp & _) & _ & _ & Fu).
  destruct (k_good r n A B p d K) as [gd gd']. destruct (pos_ok r n A B p d K) as (PN & _ & PU & _).
  unfold Weyl_coorbit. eapply gives_bind; [apply (C107_to_codominant fits r n A B p d v Dt Lv)|]. intros u (Lu & Du & ww & Fw & Eu).
  rewrite (k_ss r n A B p d K).
  eapply gives_bind; [apply (costab_run fits r n (fcol r A) u); [exact Lu|intros; apply fcol_length|intros s Hs; apply (proj1 (d_simple_run r n A B p d K s Hs))]|]. intros st (Ls & Bs).
  assert (HC' : forall i j, (i < n)%nat -> (j < n)%nat -> dot r (fcol r B i) (fcol r A j) = flip (fun i j => dot r (fcol r A i) (fcol r B j)) i j) by (intros; apply dot_comm).
  eapply gives_mono; [|intros O; apply (orbit_moved r n (fcol r B) (fcol r A) (flip (fun i j => dot r (fcol r A i) (fcol r B j))) v u O ww); try assumption; try reflexivity; intros; apply fcol_length].
  replace (S (d_npos d)) with (S (length (pos_roots d))) by (unfold pos_roots, d_npos; rewrite map_length, seq_length; reflexivity).
  apply (simple_orbit fits r n (fcol r B) (fcol r A) (flip (fun i j => dot r (fcol r A i) (fcol r B j)))) with (den := den); try assumption; try reflexivity; try (intros; apply fcol_length).
  - intros x Hx. apply (proj2 (d_simple_run r n A B p d K x Hx)).
  - intros x Hx. apply (proj1 (d_simple_run r n A B p d K x Hx)).
  - intros x w Hx Lw. pose proof (proj2 (simple_run fits r n A B p d K x w 0 Hx Lw)) as Q. rewrite Z.add_0_r, dot_comm in Q. exact Q.
  - intros i Hx. destruct (Fu i Hx) as (w' & w & c' & c & _ & G & _ & -> & H). exists (comb r n (fcol r B) c). split; [exact G|]. split; [apply comb_length|]. intros j Hj. rewrite dot_comm. apply H, Hj.
Qed.
(** for GSp(4) *)
Example C122_ex : datum_of i32 3 2 gA gB gsp D /\ fundamental i32 idZ short16 gsp = Ok ([[2; 0; -1]; [2; 2; -2]], [[2; 0; 0]; [1; 1; 0]], 2) /\
  Weyl_orbit i32 [[2; 0; -1]; [2; 2; -2]] D [-3; 5; 2] = Ok [[5; 3; -1]; [5; -3; 2]; [-3; 5; 2]; [-3; -5; 7]; [3; 5; -1]; [3; -5; 4]; [-5; 3; 4]; [-5; -3; 7]] /\
  Weyl_orbit i32 [[2; 0; -1]; [2; 2; -2]] D [1; 0; 2] = Ok [[1; 0; 2]; [0; 1; 2]; [0; -1; 3]; [-1; 0; 3]] /\
  Weyl_coorbit i32 [[2; 0; 0]; [1; 1; 0]] D [-3; 5; 2] = Ok [[5; 5; 2]; [5; -3; 2]; [-3; 5; 2]; [-3; -3; 2]] /\ Weyl_coorbit i32 [[2; 0; 0]; [1; 1; 0]] D [1; 1; 2] = Ok [[1; 1; 2]].
Proof. split; [apply datum_gsp|]. vm_compute. auto 10. Qed.

(** * C123: orbits for groups generated by given reflections *)
(** The positive roots [g] listed are the simple roots of a root system of finite type.  The result is the orbit of the
    vector that is dominant for the whole system and in the orbit of [v] for the whole Weyl group *)
Definition listed_simple (r n : nat) (A B : nat -> nat -> Z) (d : datum) (g : list nat) : Prop :=
  Forall (fun a => (num_pos (d_sys d) <= a < num_roots (d_sys d))%nat) g /\ finite_type (length g) (fun i j => dot r (listed_roots r n A d g i) (listed_coroots r n B d g j)).
Lemma listed_lt r n A B d g : listed_simple r n A B d g -> Forall (fun a => (a < num_roots (d_sys d))%nat) g.
Proof. intros (F & _). eapply Forall_impl; [|exact F]. cbv beta. intros a H. lia. Qed.
Lemma listed_distinct r n A B p d g : datum_ok r n A B p d -> listed_simple r n A B d g -> NoDup g.
Proof.
  intros K Ls. pose proof (listed_lt _ _ _ _ _ _ Ls) as F. apply (listed_nodup g _) with (2 := proj2 Ls). intros i j Hi Hj Q. unfold listed_roots, listed_coroots. rewrite <- Q.
  assert (Ha : (nth i g 0 < num_roots (d_sys d))%nat) by (rewrite Forall_forall in F; apply F, nth_In, Hi). rewrite (dot_emb_coemb r n (fcol r A) (fcol r B) (fun i j => dot r (fcol r A i) (fcol r B j))) by (intros; reflexivity).
  destruct (k_sys _ _ _ _ _ _ K) as [c (L & Ft & H & Es)]. apply (rc_value n _ (proj1 (f_cart n _ Ft))). apply (k_at r n A B p d K _ Ha).
Qed.
(** a positive coroot is not negative on a dominant vector *)
Lemma dominant_listed r n A B p d g u : datum_ok r n A B p d -> listed_simple r n A B d g -> dominant r n (fcol r B) u -> dominant r (length g) (listed_coroots r n B d g) u.
Proof.
  intros K Ls Du i Hi. unfold listed_coroots. destruct Ls as (F & _). rewrite Forall_forall in F. pose proof (F _ (nth_In g 0%nat Hi)) as Ha. rewrite dot_comb_r. apply zsum_nonneg. intros k Hk. apply Z.mul_nonneg_nonneg; [|apply Du, Hk].
  destruct (pos_ok r n A B p d K) as (_ & _ & _ & U). apply (up_nonneg n (flip (fun i j => dot r (fcol r A i) (fcol r B j)))). apply U. unfold pos_coroots. apply in_map, in_seq. unfold num_roots in Ha. lia.
Qed.
Lemma codominant_listed r n A B p d g u : datum_ok r n A B p d -> listed_simple r n A B d g -> dominant r n (fcol r A) u -> dominant r (length g) (listed_roots r n A d g) u.
Proof.
  intros K Ls Du i Hi. unfold listed_roots. destruct Ls as (F & _). rewrite Forall_forall in F. pose proof (F _ (nth_In g 0%nat Hi)) as Ha. rewrite dot_comb_r. apply zsum_nonneg. intros k Hk. apply Z.mul_nonneg_nonneg; [|apply Du, Hk].
  destruct (pos_ok r n A B p d K) as (_ & _ & U & _). apply (up_nonneg n (fun i j => dot r (fcol r A i) (fcol r B j))). apply U. unfold pos_roots. apply in_map, in_seq. unfold num_roots in Ha. lia.
Qed.
Theorem C123_weights (fits : Z -> bool) (as_int : Z -> Z) (r n : nat) (A B : nat -> nat -> Z) (p : predatum) (d : datum) (g : list nat) (v : list Z) :
  datum_of fits r n A B p d -> (forall z, as_int z = z) -> listed_simple r n A B d g -> length v = r ->
  gives (Weyl_orbit_gens fits as_int d g v) (fun O => exists u ww, length u = r /\ dominant r n (fcol r B) u /\ word n ww /\ act_by r (fcol r A) (fcol r B) ww v = u /\
    orbit_list r (length g) (listed_roots r n A d g) (listed_coroots r n B d g) u O) (overflows fits).
Proof.
  intros Dt Hi Ls Lv. pose proof (datum_of_ok _ _ _ _ _ _ _ Dt) as K. pose proof (listed_lt _ _ _ _ _ _ Ls) as Fg. pose proof (listed_distinct _ _ _ _ _ _ _ K Ls) as Ng.
  assert (gl : forall a, In a g -> (a < num_roots (d_sys d))%nat) by (rewrite Forall_forall in Fg; exact Fg).
  assert (cbo : forall a, In a g -> d_root d a = Ok (listed_roots r n A d g (index_of g a)) /\ d_coroot d a = Ok (listed_coroots r n B d g (index_of g a))). { intros a Ia. unfold listed_roots, listed_coroots. rewrite (proj2 (index_at g a Ia)). apply (d_root_run r n A B p d K a (gl a Ia)). }
  unfold Weyl_orbit_gens, make_dominant_gens. eapply gives_bind; [apply (C107_to_dominant fits r n A B p d v Dt Lv)|]. intros u (Lu & Du & ww & Fw & Eu).
  eapply gives_bind.
  { apply (split_run _ _ (fun a => dot r u (listed_coroots r n B d g (index_of g a)))); [exact Ng|exact gl|]. intros a Ia. rewrite (proj2 (cbo a Ia)). cbn [bind]. rewrite dot_comm. apply (dot_into_run fits r); [apply comb_length|exact Lu]. }
  intros q (Q1 & Q2 & Q3 & Q4). rewrite (k_rank _ _ _ _ _ _ K).
  destruct (listed_positive r n A B p d K g Fg (proj2 Ls)) as (P & P' & _ & PN & _ & PU & _ & PL). destruct (top_good _ _ (proj2 Ls)) as [gd gd'].
  eapply gives_mono; [|intros O HO; exists u, ww; split; [exact Lu|]; split; [exact Du|]; split; [exact Fw|]; split; [exact Eu|exact HO]].
  apply (gens_orbit fits as_int Hi r (length g) (listed_roots r n A d g) (listed_coroots r n B d g) (fun i j => dot r (listed_roots r n A d g i) (listed_coroots r n B d g j))) with (P := P') (g := g); try assumption; try reflexivity; try (intros; apply comb_length).
  - intros x Ix. apply (cbo x Ix).
  - intros x Ix. apply (cbo x Ix).
  - intros x w Ix Lw. pose proof (proj1 (reflect_run fits r n A B p d K x w 0 (gl x Ix) Lw)) as Q. rewrite Z.add_0_r in Q. unfold listed_roots, listed_coroots. rewrite (proj2 (index_at g x Ix)). exact Q.
  - apply (dominant_listed r n A B p d g u K Ls Du).
Qed.
Theorem C123_coweights (fits : Z -> bool) (as_int : Z -> Z) (r n : nat) (A B : nat -> nat -> Z) (p : predatum) (d : datum) (g : list nat) (v : list Z) :
  datum_of fits r n A B p d -> (forall z, as_int z = z) -> listed_simple r n A B d g -> length v = r ->
  gives (Weyl_coorbit_gens fits as_int d g v) (fun O => exists u ww, length u = r /\ dominant r n (fcol r A) u /\ word n ww /\ act_by r (fcol r B) (fcol r A) ww v = u /\
    orbit_list r (length g) (listed_coroots r n B d g) (listed_roots r n A d g) u O) (overflows fits).
Proof.
  intros Dt Hi Ls Lv. pose proof (datum_of_ok _ _ _ _ _ _ _ Dt) as K. pose proof (listed_lt _ _ _ _ _ _ Ls) as Fg. pose proof (listed_distinct _ _ _ _ _ _ _ K Ls) as Ng.
  assert (gl : forall a, In a g -> (a < num_roots (d_sys d))%nat) by (rewrite Forall_forall in Fg; exact Fg).
  assert (cbo : forall a, In a g -> d_root d a = Ok (listed_roots r n A d g (index_of g a)) /\ d_coroot d a = Ok (listed_coroots r n B d g (index_of g a))). { intros a Ia. unfold listed_roots, listed_coroots. rewrite (proj2 (index_at g a Ia)). apply (d_root_run r n A B p d K a (gl a Ia)). }
  unfold Weyl_coorbit_gens, make_codominant_gens. eapply gives_bind; [apply (C107_to_codominant fits r n A B p d v Dt Lv)|]. intros u (Lu & Du & ww & Fw & Eu).
  eapply gives_bind.
  { apply (split_run _ _ (fun a => dot r u (listed_roots r n A d g (index_of g a)))); [exact Ng|exact gl|]. intros a Ia. rewrite (proj1 (cbo a Ia)). cbn [bind]. apply (dot_into_run fits r); [exact Lu|apply comb_length]. }
  intros q (Q1 & Q2 & Q3 & Q4). rewrite (k_rank _ _ _ _ _ _ K).
  destruct (listed_positive r n A B p d K g Fg (proj2 Ls)) as (P & P' & PN & _ & PU & _ & PL & _). destruct (top_good _ _ (proj2 Ls)) as [gd gd'].
  eapply gives_mono; [|intros O HO; exists u, ww; split; [exact Lu|]; split; [exact Du|]; split; [exact Fw|]; split; [exact Eu|exact HO]].
  apply (gens_orbit fits as_int Hi r (length g) (listed_coroots r n B d g) (listed_roots r n A d g) (flip (fun i j => dot r (listed_roots r n A d g i) (listed_coroots r n B d g j)))) with (P := P) (g := g); try assumption; try reflexivity; try (intros; apply comb_length).
  - intros i j _ _. apply dot_comm.
  - intros x Ix. apply (cbo x Ix).
  - intros x Ix. apply (cbo x Ix).
  - intros x w Ix Lw. pose proof (proj2 (reflect_run fits r n A B p d K x w 0 (gl x Ix) Lw)) as Q. rewrite Z.add_0_r, dot_comm in Q. unfold listed_roots, listed_coroots. rewrite (proj2 (index_at g x Ix)). exact Q.
  - apply (codominant_listed r n A B p d g u K Ls Du).
Qed.
(** so for a vector that is dominant it is the orbit of that vector *)
Theorem C123_dominant (fits : Z -> bool) (as_int : Z -> Z) (r n : nat) (A B : nat -> nat -> Z) (p : predatum) (d : datum) (g : list nat) (v : list Z) :
  datum_of fits r n A B p d -> (forall z, as_int z = z) -> listed_simple r n A B d g -> length v = r -> dominant r n (fcol r B) v ->
  gives (Weyl_orbit_gens fits as_int d g v) (orbit_list r (length g) (listed_roots r n A d g) (listed_coroots r n B d g) v) (overflows fits).
Proof.
  intros Dt Hi Ls Lv Dv. eapply gives_mono; [apply (C123_weights fits as_int r n A B p d g v Dt Hi Ls Lv)|]. intros O (u & ww & Lu & Du & Fw & Eu & HO).
  replace v with u; [exact HO|]. pose proof (datum_of_ok _ _ _ _ _ _ _ Dt) as K. apply (unique_dominant r n A B p d K [] ww u v); try assumption; [constructor|]. cbn. symmetry. exact Eu.
Qed.
Theorem C123_codominant (fits : Z -> bool) (as_int : Z -> Z) (r n : nat) (A B : nat -> nat -> Z) (p : predatum) (d : datum) (g : list nat) (v : list Z) :
  datum_of fits r n A B p d -> (forall z, as_int z = z) -> listed_simple r n A B d g -> length v = r -> dominant r n (fcol r A) v ->
  gives (Weyl_coorbit_gens fits as_int d g v) (orbit_list r (length g) (listed_coroots r n B d g) (listed_roots r n A d g) v) (overflows fits).
Proof.
  intros Dt Hi Ls Lv Dv. eapply gives_mono; [apply (C123_coweights fits as_int r n A B p d g v Dt Hi Ls Lv)|]. intros O (u & ww & Lu & Du & Fw & Eu & HO).
  replace v with u; [exact HO|]. pose proof (datum_of_ok _ _ _ _ _ _ _ Dt) as K. apply (unique_codominant r n A B p d K [] ww u v); try assumption; [constructor|]. cbn. symmetry. exact Eu.
Qed.

Lemma long_simple : listed_simple 3 2 gA gB D [5; 7]%nat.
Proof.
  split; [constructor; [vm_compute; lia|constructor; [vm_compute; lia|constructor]]|].
  assert (H : is_mx (mk_mat 2 2 [2; 0; 0; 2]) 2 2 (fun i j => dot 3 (listed_roots 3 2 gA D [5; 7]%nat i) (listed_coroots 3 2 gB D [5; 7]%nat j))).
  { split; [reflexivity|]. split; [reflexivity|]. split; [reflexivity|]. intros i j Hi Hj. change (length [5; 7]%nat) with 2%nat in *. do 2 (destruct i as [|i]; [do 2 (destruct j as [|j]; [vm_compute; reflexivity|]); lia|]). lia. }
  eapply type_finite; [cbn; lia|exact H|vm_compute; reflexivity].
Qed.
Example C123_ex : datum_of i32 3 2 gA gB gsp D /\ listed_simple 3 2 gA gB D [5; 7]%nat /\ dominant 3 2 (fcol 3 gB) [2; 1; 0] /\ dominant 3 2 (fcol 3 gA) [5; 5; 2] /\
  Weyl_orbit_gens i32 idZ D [5; 7]%nat [2; 1; 0] = Ok [[2; 1; 0]; [-2; 1; 2]; [2; -1; 1]; [-2; -1; 3]] /\ Weyl_orbit_gens i32 idZ D [7]%nat [2; 1; 0] = Ok [[2; 1; 0]; [-2; 1; 2]] /\
  Weyl_coorbit_gens i32 idZ D [5; 7]%nat [5; 5; 2] = Ok [[5; 5; 2]; [-3; 5; 2]; [5; -3; 2]; [-3; -3; 2]] /\ Weyl_coorbit_gens i32 idZ D [5; 7]%nat [1; 1; 2] = Ok [[1; 1; 2]].
Proof.
  split; [apply datum_gsp|]. split; [exact long_simple|]. split; [intros [|[|i]] Hi; [vm_compute; discriminate|vm_compute; discriminate|lia]|]. split; [intros [|[|i]] Hi; [vm_compute; discriminate|vm_compute; discriminate|lia]|].
  vm_compute. auto.
Qed.
(** For a vector that is not dominant the result is not the orbit of that vector, as the code calls make_dominant with
    the generators, and this does not use them.  With no generators the orbit should have the vector alone; for the long
    roots, the vector below is dominant for those roots, and is not found *)
Theorem C123_orbit_refuted : exists v O1 O2, datum_of i32 3 2 gA gB gsp D /\ listed_simple 3 2 gA gB D [] /\ listed_simple 3 2 gA gB D [5; 7]%nat /\ length v = 3%nat /\
  dominant 3 2 (listed_coroots 3 2 gB D [5; 7]%nat) v /\ Weyl_orbit_gens i32 idZ D [] v = Ok O1 /\ ~ In v O1 /\ Weyl_orbit_gens i32 idZ D [5; 7]%nat v = Ok O2 /\ ~ In v O2.
Proof.
  exists [1; 2; 0], [[2; 1; 0]], [[2; 1; 0]; [-2; 1; 2]; [2; -1; 1]; [-2; -1; 3]]. split; [apply datum_gsp|]. split; [split; [constructor|]|].
  { eapply (type_finite 0 _ (mk_mat 0 0 [])); [lia| |vm_compute; reflexivity]. split; [reflexivity|]. split; [reflexivity|]. split; [reflexivity|]. cbn. intros; lia. }
  split; [exact long_simple|]. split; [reflexivity|]. split; [intros [|[|i]] Hi; [vm_compute; discriminate|vm_compute; discriminate|lia]|].
  split; [vm_compute; reflexivity|]. split; [cbn; intuition discriminate|]. split; [vm_compute; reflexivity|]. cbn. intuition discriminate.
Qed.
Theorem C123_coorbit_refuted : exists v O, datum_of i32 3 2 gA gB gsp D /\ listed_simple 3 2 gA gB D [5; 7]%nat /\ length v = 3%nat /\
  Weyl_coorbit_gens i32 idZ D [5; 7]%nat v = Ok O /\ ~ In v O.
Proof.
  exists [5; 7; 2], [[7; 5; 2]; [-5; 5; 2]; [7; -3; 2]; [-5; -3; 2]]. split; [apply datum_gsp|]. split; [exact long_simple|]. split; [reflexivity|]. split; [vm_compute; reflexivity|]. cbn. intuition discriminate.
Qed.

Print Assumptions C122_weights.
Print Assumptions C122_coweights.
Print Assumptions C123_weights.
Print Assumptions C123_coweights.
Print Assumptions C123_dominant.
Print Assumptions C123_codominant.
Print Assumptions C123_orbit_refuted.
Print Assumptions C123_coorbit_refuted.
