(** Generation of the orbit of a vector, layer by layer. *)

From Coq Require Import List Arith ZArith Bool Lia Permutation.
From Verif Require Import VecModel VecProofs RunModel RunProofs MatModel MatSpec MatLin MatProofs LieTypeSpec RootModel RootSpec RootBase RootMath RootForm RootFin RootCo RootUniq
  DatModel DatSpec DatMath DatProofs DatOps OrbModel OrbMath.
Import ListNotations.
Local Open Scope Z_scope.

Section Orb.
Variable fits : Z -> bool.
Notation E := (overflows fits).
Variables (r n : nat) (al be : nat -> list Z) (C : nat -> nat -> Z).
Hypothesis La : forall i, (i < n)%nat -> length (al i) = r.
Hypothesis Lb : forall i, (i < n)%nat -> length (be i) = r.
Hypothesis HC : forall i j, (i < n)%nat -> (j < n)%nat -> dot r (al i) (be j) = C i j.
Hypothesis gd : good n C.
Hypothesis gd' : good n (flip C).
Notation act := (act_by r al be).
Notation sv i := (reflect_at r (al i) (be i)).
Notation letters := (Forall (fun i => (i < n)%nat)).
Variable P : list (list Z).
Hypothesis PN : NoDup P.
Hypothesis PU : forall w, In w P <-> up n (flip C) w.
Notation dp := (neg_count r n be P).
(** generators are labels, with positions in the simple system *)
Variable pos : nat -> nat.

Section Layers.
Variable gens : list nat.
Hypothesis gn : forall x, In x gens -> (pos x < n)%nat.
Definition inq (i : nat) : Prop := exists x, In x gens /\ pos x = i.
Lemma inq_n i : inq i -> (i < n)%nat. Proof. intros (x & I & <-). apply gn. exact I. Qed.
Variable e : list Z.
Hypothesis Le : length e = r.
Hypothesis De : qdom r be inq e.
Definition orb (m : list Z) : Prop := exists w, Forall inq w /\ m = act w e.
Lemma orb_e : orb e. Proof. exists []. split; [constructor|reflexivity]. Qed.
Lemma orb_step x m : In x gens -> orb m -> orb (sv (pos x) m).
Proof. intros I (w & F & ->). exists (pos x :: w). split; [constructor; [exists x; auto|exact F]|reflexivity]. Qed.
Lemma orb_length m : orb m -> length m = r.
Proof. intros (w & F & ->). apply act_length. exact Le. Qed.
Lemma step_up x m : In x gens -> length m = r -> 0 < dot r m (be (pos x)) -> dp (sv (pos x) m) = S (dp m).
Proof.
  intros I L V. destruct (count_step r n al be C La Lb HC gd gd' P PN PU (pos x) m (gn x I) L) as (q & E1 & E2). rewrite E1, E2.
  destruct (Z.ltb_spec (dot r m (be (pos x))) 0); destruct (Z.ltb_spec 0 (dot r m (be (pos x)))); lia.
Qed.
Lemma back x m : In x gens -> length m = r -> sv (pos x) (sv (pos x) m) = m.
Proof. intros I L. apply (sv_sv r n al be C La HC gd); [apply gn; exact I|exact L]. Qed.
Lemma value_back x m : In x gens -> length m = r -> dot r (sv (pos x) m) (be (pos x)) = - dot r m (be (pos x)).
Proof. intros I L. pose proof (gn x I) as H. unfold reflect_at. rewrite dot_away by auto. rewrite HC by exact H. rewrite (proj1 (proj1 gd) _ H). lia. Qed.
Lemma down m : orb m -> m <> e -> exists x, In x gens /\ dot r m (be (pos x)) < 0 /\ orb (sv (pos x) m) /\ 0 < dot r (sv (pos x) m) (be (pos x)) /\ dp m = S (dp (sv (pos x) m)) /\ sv (pos x) (sv (pos x) m) = m.
Proof.
  intros O N. pose proof (orb_length m O) as L. destruct (existsb (fun x => dot r m (be (pos x)) <? 0) gens) eqn:X.
  - apply existsb_exists in X. destruct X as (x & I & V). apply Z.ltb_lt in V. exists x. pose proof (value_back x m I L) as VB. pose proof (back x m I L) as B. split; [exact I|]. split; [exact V|]. split; [apply orb_step; assumption|]. split; [lia|]. split; [|exact B].
    rewrite <- (step_up x (sv (pos x) m) I); [rewrite B; reflexivity|apply ra_length|lia].
  - exfalso. apply N. destruct O as (w & F & ->). apply (q_unique r n al be C La Lb HC gd gd' inq inq_n); [exact F|exact Le|exact De|].
    intros j (x & I & <-). destruct (Z.ltb_spec (dot r (act w e) (be (pos x))) 0) as [V|V]; [|exact V]. exfalso. apply Bool.not_true_iff_false in X. apply X. apply existsb_exists. exists x. split; [exact I|apply Z.ltb_lt; exact V].
Qed.
Lemma above_e k : forall m, (dp m <= k)%nat -> orb m -> m = e \/ (dp e < dp m)%nat.
Proof.
  induction k as [|k IH]; intros m Hk O; (destruct (list_eq_dec Z.eq_dec m e) as [Q|Q]; [left; exact Q|right]); destruct (down m O Q) as (x & I & V & O' & V' & D & B); [lia|].
  destruct (IH (sv (pos x) m) ltac:(lia) O') as [Q'|Q']; [rewrite D, Q'; lia|lia].
Qed.

(** the list of elements found: every one but the first comes from an earlier one *)
Definition vecs (l : list oelem) := map oe_v l.
Definition linked (l : list oelem) : Prop := (exists y, get l 0 = Some y /\ oe_v y = e) /\
  forall k, (1 <= k < length l)%nat -> exists x p y, (p < k)%nat /\ In x gens /\ get l p = Some y /\ get l k = Some (mk_oe (sv (pos x) (oe_v y)) (Some (x, p))).
Lemma get_old {T} (l : list T) x k y : get l k = Some y -> get (l ++ [x]) k = Some y.
Proof. intros G. rewrite get_app. destruct (Nat.eqb_spec k (length l)) as [Q|Q]; [|exact G]. apply get_lt in G. lia. Qed.
Lemma linked_snoc l x p y : linked l -> In x gens -> get l p = Some y -> linked (l ++ [mk_oe (sv (pos x) (oe_v y)) (Some (x, p))]).
Proof.
  intros ((y0 & G0 & E0) & Lk) I G. split; [exists y0; split; [apply get_old; exact G0|exact E0]|]. intros k Hk. rewrite app_length in Hk. cbn in Hk.
  destruct (Nat.eq_dec k (length l)) as [Q|Q].
  - exists x, p, y. split; [apply get_lt in G; lia|]. split; [exact I|]. split; [apply get_old; exact G|]. rewrite get_app, (proj2 (Nat.eqb_eq _ _) Q). reflexivity.
  - destruct (Lk k ltac:(lia)) as (x' & p' & y' & H1 & H2 & H3 & H4). exists x', p', y'. split; [exact H1|]. split; [exact H2|]. split; apply get_old; assumption.
Qed.
Lemma linked_orb l : linked l -> forall k y, get l k = Some y -> orb (oe_v y).
Proof.
  intros ((y0 & G0 & E0) & Lk) k. induction k as [k IH] using lt_wf_ind. intros y G. destruct k as [|k]; [replace y with y0 by congruence; rewrite E0; apply orb_e|].
  destruct (Lk (S k) ltac:(pose proof (get_lt l _ _ G); lia)) as (x & p & y' & H1 & H2 & H3 & H4). replace y with (mk_oe (sv (pos x) (oe_v y')) (Some (x, p))) by congruence. cbn [oe_v]. apply orb_step; [exact H2|]. apply (IH p H1). exact H3.
Qed.
Lemma In_get {T} (l : list T) x : In x l -> exists k, get l k = Some x.
Proof. intros I. destruct (In_nth_error l x I) as [k H]. exists k. exact H. Qed.
Lemma In_vecs l m : In m (vecs l) <-> exists k y, get l k = Some y /\ oe_v y = m.
Proof.
  unfold vecs. rewrite in_map_iff. split.
  - intros (y & Ey & I). destruct (In_get l y I) as [k G]. exists k, y. auto.
  - intros (k & y & G & Ey). exists y. split; [exact Ey|]. apply (get_In l k). exact G.
Qed.
Lemma In_skipn (l : list oelem) f m : existsb (fun z => veqb (oe_v z) m) (skipn f l) = true <-> exists k y, (f <= k)%nat /\ get l k = Some y /\ oe_v y = m.
Proof.
  rewrite existsb_exists. split.
  - intros (y & I & V). apply veqb_ok in V. destruct (In_get _ _ I) as [k G]. exists (f + k)%nat, y. split; [lia|]. split; [|exact V].
    clear I. revert l G. induction f as [|f IH]; intros l G; [exact G|]. destruct l as [|z l]; [destruct k; discriminate|]. cbn in *. apply IH. exact G.
  - intros (k & y & Hk & G & V). exists y. split; [|apply veqb_ok; exact V]. revert k l Hk G. induction f as [|f IH]; intros k l Hk G; [apply (get_In l k); exact G|]. destruct l as [|z l]; [destruct k; discriminate|]. destruct k as [|k]; [lia|]. cbn in *. apply (IH k); [lia|exact G].
Qed.

Variables ra cb : nat -> res (list Z).
Hypothesis ra_ok : forall x, In x gens -> ra x = Ok (al (pos x)).
Hypothesis cb_ok : forall x, In x gens -> cb x = Ok (be (pos x)).

Record layer (h start finish : nat) (l : list oelem) : Prop := {
  y_linked : linked l;
  y_nodup : NoDup (vecs l);
  y_len : (finish <= length l)%nat /\ (1 <= start < finish)%nat;
  y_low : forall k y, get l k = Some y -> (k < start)%nat -> (dp (oe_v y) < h)%nat;
  y_here : forall k y, get l k = Some y -> (start <= k < finish)%nat -> dp (oe_v y) = h;
  y_next : forall k y, get l k = Some y -> (finish <= k)%nat -> dp (oe_v y) = S h;
  y_all : forall m, orb m -> (dp m <= h)%nat -> exists k y, (k < finish)%nat /\ get l k = Some y /\ oe_v y = m }.
Definition covered (l : list oelem) (k x : nat) : Prop := forall y, get l k = Some y -> 0 < dot r (oe_v y) (be (pos x)) -> In (sv (pos x) (oe_v y)) (vecs l).
Lemma covered_snoc l z k x : (k < length l)%nat -> covered l k x -> covered (l ++ [z]) k x.
Proof.
  intros Hk Cv y G V. rewrite get_app in G. destruct (Nat.eqb_spec k (length l)) as [Q|Q]; [lia|]. unfold vecs. rewrite map_app. apply in_or_app. left. apply Cv; assumption.
Qed.
Lemma gens_run h start finish k l : layer h start finish l -> (start <= k < finish)%nat -> (forall j x, (start <= j < k)%nat -> In x gens -> covered l j x) ->
  gives (orbit_gens fits ra cb gens finish k l) (fun l' => layer h start finish l' /\ (forall j x, (start <= j < S k)%nat -> In x gens -> covered l' j x)) E.
Proof.
  intros Y Hk Cv. unfold orbit_gens.
  apply (gives_upto0 (fun q l => layer h start finish l /\ (forall j x, (start <= j < k)%nat -> In x gens -> covered l j x) /\ forall i x, (i < q)%nat -> get gens i = Some x -> covered l k x)).
  - split; [exact Y|]. split; [exact Cv|]. intros; lia.
  - clear l Y Cv. intros q l Hq (Y & Cv & Cq). destruct (get_some gens q Hq) as [x Gx]. rewrite (vget_ok _ _ _ Gx). cbn [bind]. pose proof (get_In gens q x Gx) as Ix.
    destruct (get_some l k ltac:(destruct (y_len _ _ _ _ Y); lia)) as [y Gy]. rewrite (vget_ok _ _ _ Gy). cbn [bind]. rewrite (cb_ok x Ix). cbn [bind].
    pose proof (linked_orb l (y_linked _ _ _ _ Y) k y Gy) as Oy. pose proof (orb_length _ Oy) as Ly. pose proof (gn x Ix) as Px.
    eapply gives_bind; [apply (dot_into_run fits r); [exact Ly|apply Lb; exact Px]|]. intros lev <-.
    assert (Done : forall l', layer h start finish l' -> (forall j x, (start <= j < k)%nat -> In x gens -> covered l' j x) -> (forall i x, (i < q)%nat -> get gens i = Some x -> covered l' k x) -> covered l' k x ->
      layer h start finish l' /\ (forall j x, (start <= j < k)%nat -> In x gens -> covered l' j x) /\ forall i x, (i < S q)%nat -> get gens i = Some x -> covered l' k x).
    { intros l' Y' Cv' Cq' Cx'. split; [exact Y'|]. split; [exact Cv'|]. intros i x' Hi G'. destruct (Nat.eq_dec i q) as [Q|Q]; [subst i; replace x' with x by congruence; exact Cx'|]. apply (Cq' i); [lia|exact G']. }
    destruct (Z.leb_spec (dot r (oe_v y) (be (pos x))) 0) as [V|V].
    + apply gives_ok. apply Done; try assumption. intros y' G' V'. replace y' with y in V' by congruence. lia.
    + rewrite (ra_ok x Ix). cbn [bind]. eapply gives_bind; [apply (submul_run fits r); [exact Ly|apply La; exact Px]|]. intros wt Ew. change (away r (oe_v y) (dot r (oe_v y) (be (pos x))) (al (pos x))) with (sv (pos x) (oe_v y)) in Ew.
      assert (Dw : dp wt = S h). { rewrite <- Ew. rewrite step_up by assumption. f_equal. apply (y_here _ _ _ _ Y k y Gy Hk). }
      destruct (existsb (fun z => veqb (oe_v z) wt) (skipn finish l)) eqn:X.
      * apply In_skipn in X. destruct X as (k' & z & _ & Gz & Ez). apply gives_ok. apply Done; try assumption. intros y' G' V'. replace y' with y by congruence. rewrite Ew. apply In_vecs. exists k', z. auto.
      * assert (Nw : ~ In wt (vecs l)). { intros I. apply In_vecs in I. destruct I as (k' & z & Gz & Ez). destruct (Nat.lt_ge_cases k' finish) as [H|H].
          - assert (dp (oe_v z) <= h)%nat; [|rewrite Ez in *; lia]. destruct (Nat.lt_ge_cases k' start) as [H'|H']; [pose proof (y_low _ _ _ _ Y k' z Gz H'); lia|rewrite (y_here _ _ _ _ Y k' z Gz ltac:(lia)); lia].
          - apply Bool.not_true_iff_false in X. apply X. apply In_skipn. exists k', z. auto. }
        destruct (y_len _ _ _ _ Y) as [Len1 Len2]. apply gives_ok. rewrite <- Ew. apply Done.
        -- destruct Y as [Y1 Y2 Y3 Y4 Y5 Y6 Y7]. split.
           ++ apply linked_snoc; assumption.
           ++ unfold vecs. rewrite map_app. cbn [map oe_v]. rewrite Ew. apply (Permutation_NoDup (l := wt :: vecs l)); [apply Permutation_cons_append|constructor; assumption].
           ++ rewrite app_length. split; lia.
           ++ intros k' z G Hz. rewrite get_app in G. destruct (Nat.eqb_spec k' (length l)); [lia|]. apply (Y4 k' z G Hz).
           ++ intros k' z G Hz. rewrite get_app in G. destruct (Nat.eqb_spec k' (length l)); [lia|]. apply (Y5 k' z G Hz).
           ++ intros k' z G Hz. rewrite get_app in G. destruct (Nat.eqb_spec k' (length l)); [injection G as <-; cbn [oe_v]; rewrite Ew; exact Dw|]. apply (Y6 k' z G Hz).
           ++ intros m Om Hm. destruct (Y7 m Om Hm) as (k' & z & H1 & H2 & H3). exists k', z. split; [exact H1|]. split; [apply get_old; exact H2|exact H3].
        -- intros j x' Hj Ix'. apply covered_snoc; [lia|apply Cv; assumption].
        -- intros i x' Hi Gx'. apply covered_snoc; [lia|apply (Cq i); assumption].
        -- intros y' G' V'. rewrite get_app in G'. destruct (Nat.eqb_spec k (length l)); [lia|]. replace y' with y by congruence. unfold vecs. rewrite map_app. apply in_or_app. right. left. reflexivity.
  - intros l' (Y' & Cv' & Cq'). split; [exact Y'|]. intros j x Hj Ix. destruct (Nat.eq_dec j k) as [Q|Q]; [|apply Cv'; [lia|exact Ix]]. subst j. destruct (In_get gens x Ix) as [i Gi]. apply (Cq' i); [apply (get_lt gens i x Gi)|exact Gi].
Qed.
(** the next layer is complete *)
Lemma next_layer h start finish l : layer h start finish l -> (forall j x, (start <= j < finish)%nat -> In x gens -> covered l j x) ->
  forall m, orb m -> dp m = S h -> In m (vecs l).
Proof.
  intros Y Cv m O D. assert (N : m <> e). { intros ->. destruct (y_linked _ _ _ _ Y) as ((y0 & G0 & E0) & _). destruct (y_len _ _ _ _ Y) as [_ Hs]. pose proof (y_low _ _ _ _ Y 0%nat y0 G0 ltac:(lia)). rewrite E0 in *. lia. }
  destruct (down m O N) as (x & I & V & O' & V' & D' & B). destruct (y_all _ _ _ _ Y _ O' ltac:(lia)) as (k & y & Hk & Gk & Ey).
  assert (Hs : (start <= k)%nat). { destruct (Nat.lt_ge_cases k start) as [H|H]; [|exact H]. pose proof (y_low _ _ _ _ Y k y Gk H) as Z1. rewrite Ey in Z1. lia. }
  pose proof (Cv k x (conj Hs Hk) I y Gk) as Cy. rewrite Ey in Cy. rewrite B in Cy. apply Cy. exact V'.
Qed.
Lemma no_more h l : (forall m, orb m -> (dp m <= h)%nat -> In m (vecs l)) -> (forall m, orb m -> dp m = S h -> False) -> linked l -> (exists y, get l 0 = Some y /\ (dp (oe_v y) <= h)%nat) -> forall m, orb m -> In m (vecs l).
Proof.
  intros A N Lk (y0 & G0 & D0) m O. assert (De' : (dp e <= h)%nat). { destruct Lk as ((y1 & G1 & E1) & _). rewrite <- E1. replace y1 with y0 by congruence. exact D0. }
  assert (X : forall k m, orb m -> dp m = (S h + k)%nat -> False).
  { induction k as [|k IH]; intros m' O' D'; [apply (N m' O'); lia|]. destruct (list_eq_dec Z.eq_dec m' e) as [Q|Q]; [subst m'; lia|]. destruct (down m' O' Q) as (x & I & V & O2 & V' & D2 & B). apply (IH _ O2). lia. }
  destruct (Nat.le_gt_cases (dp m) h) as [H|H]; [apply A; assumption|]. exfalso. apply (X (dp m - S h)%nat m O). lia.
Qed.
Definition complete (l : list oelem) : Prop := linked l /\ NoDup (vecs l) /\ forall m, orb m -> In m (vecs l).
Lemma layers_run fuel : forall h start finish l, layer h start finish l -> length l = finish -> (length P < fuel + h)%nat -> gives (orbit_layers fits ra cb fuel gens start finish l) complete E.
Proof.
  induction fuel as [|fuel IH]; intros h start finish l Y Lf Hf; cbn [orbit_layers]; pose proof (y_len _ _ _ _ Y) as [_ Hs].
  - exfalso. destruct (get_some l start ltac:(lia)) as [y G]. pose proof (y_here _ _ _ _ Y start y G ltac:(lia)) as D. pose proof (count_le r n be P (oe_v y)). lia.
  - eapply gives_bind.
    + apply (gives_upto (fun k l => layer h start finish l /\ forall j x, (start <= j < k)%nat -> In x gens -> covered l j x)).
      * split; [exact Y|]. intros; lia.
      * intros k l' Hk (Y' & Cv'). apply gens_run; [exact Y'|lia|exact Cv'].
    + cbv beta. replace (start + (finish - start))%nat with finish by lia. intros l1 (Y1 & Cv1). pose proof (next_layer h start finish l1 Y1 Cv1) as Nx. destruct (Nat.eqb_spec (length l1) finish) as [Q|Q].
      * apply gives_ok. split; [apply Y1|]. split; [apply Y1|]. apply (no_more h l1).
        -- intros m O D. destruct (y_all _ _ _ _ Y1 m O D) as (k & y & _ & G & Ey). apply In_vecs. exists k, y. auto.
        -- intros m O D. pose proof (Nx m O D) as I. apply In_vecs in I. destruct I as (k & y & G & Ey). pose proof (get_lt l1 k y G) as Hk. assert (Dl : (dp (oe_v y) <= h)%nat). { destruct (Nat.lt_ge_cases k start) as [H'|H']; [pose proof (y_low _ _ _ _ Y1 k y G H'); lia|rewrite (y_here _ _ _ _ Y1 k y G ltac:(lia)); lia]. } rewrite Ey in Dl. lia.
        -- apply Y1.
        -- destruct (y_linked _ _ _ _ Y1) as ((y0 & G0 & E0) & _). exists y0. split; [exact G0|]. pose proof (y_low _ _ _ _ Y1 0%nat y0 G0 ltac:(lia)). lia.
      * destruct (y_len _ _ _ _ Y1) as [Len1 _]. apply (IH (S h)); [|reflexivity|lia]. destruct Y1 as [Y1 Y2 Y3 Y4 Y5 Y6 Y7]. split.
        -- exact Y1.
        -- exact Y2.
        -- lia.
        -- intros k y G Hk. destruct (Nat.lt_ge_cases k start) as [H'|H']; [pose proof (Y4 k y G H'); lia|rewrite (Y5 k y G ltac:(lia)); lia].
        -- intros k y G Hk. apply (Y6 k y G). lia.
        -- intros k y G Hk. apply get_lt in G. lia.
        -- intros m O D. assert (I : In m (vecs l1)). { destruct (Nat.eq_dec (dp m) (S h)) as [Q'|Q']; [apply Nx; assumption|]. destruct (Y7 m O ltac:(lia)) as (k & y & _ & G & Ey). apply In_vecs. exists k, y. auto. }
           apply In_vecs in I. destruct I as (k & y & G & Ey). exists k, y. split; [apply (get_lt l1 k y G)|]. auto.
Qed.
Variable refl : nat -> list Z -> res (list Z).
Hypothesis refl_ok : forall x v, In x gens -> length v = r -> gives (refl x v) (eq (sv (pos x) v)) E.
Theorem basic_orbit_run fuel i : In i gens -> 0 < dot r e (be (pos i)) -> (forall x, In x gens -> pos x <> pos i -> dot r e (be (pos x)) = 0) -> (length P < fuel)%nat ->
  gives (basic_orbit fits ra cb refl fuel gens i e) complete E.
Proof.
  intros Ii Vi V0 Hf. unfold basic_orbit. eapply gives_bind; [apply (refl_ok i e Ii Le)|]. intros e1 <-.
  assert (D1 : dp (sv (pos i) e) = S (dp e)) by (apply step_up; assumption).
  apply (layers_run fuel (S (dp e))); [|reflexivity|lia]. split.
  - split; [exists (mk_oe e None); auto|]. intros k Hk. cbn in Hk. replace k with 1%nat by lia. exists i, 0%nat, (mk_oe e None). split; [lia|]. split; [exact Ii|]. split; reflexivity.
  - cbn. constructor; [|constructor; [intros []|constructor]]. intros [Q|[]]. rewrite Q in D1. lia.
  - cbn. lia.
  - intros k y G Hk. replace k with 0%nat in G by lia. injection G as <-. cbn [oe_v]. lia.
  - intros k y G Hk. replace k with 1%nat in G by lia. injection G as <-. exact D1.
  - intros k y G Hk. apply get_lt in G. cbn in G. lia.
  - intros m O D. destruct (list_eq_dec Z.eq_dec m e) as [Q|Q]; [exists 0%nat, (mk_oe e None); subst m; auto|]. destruct (down m O Q) as (x & I & V & O' & V' & D' & B).
    exists 1%nat, (mk_oe (sv (pos i) e) (Some (i, 0%nat))). split; [lia|]. split; [reflexivity|]. cbn [oe_v]. destruct (above_e _ _ (le_n _) O') as [Q'|Q']; [|lia].
    rewrite Q' in B, V'. destruct (Nat.eq_dec (pos x) (pos i)) as [Qx|Qx]; [rewrite <- Qx; exact B|]. rewrite (V0 x I Qx) in V'. lia.
Qed.
End Layers.
End Orb.
