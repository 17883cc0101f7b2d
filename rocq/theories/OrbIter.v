(** The orbit is extended one generator at a time. *)

From Coq Require Import List Arith ZArith Bool Lia Permutation.
From Verif Require Import VecModel VecProofs RunModel RunProofs MatModel MatSpec MatLin MatProofs LieTypeSpec RootModel RootSpec RootBase RootMath RootForm RootFin RootCo RootUniq
  DatModel DatSpec DatMath DatProofs DatOps RsfBase OrbModel OrbMath OrbRun OrbExt.
Import ListNotations.
Local Open Scope Z_scope.

(** both versions of the loop, with [evec] for the vector that starts the list of cosets *)
Definition extend_all (fits : Z -> bool) (ra cb : nat -> res (list Z)) (refl : nat -> list Z -> res (list Z)) (fuel : nat) (evec : bset -> nat -> res (list Z))
    (non_stab : list nat) (stab : bset) (orbit : list (list Z)) : res (list (list Z)) :=
  run q <- upto (length non_stab) 0 (fun k '(stab, orbit) =>
    run i <- vget non_stab k;
    run e <- evec stab i;
    run stab1 <- vput stab i true;
    run cosets <- basic_orbit fits ra cb refl fuel (members stab1) i e;
    run orbit1 <- extend_by refl cosets orbit;
    Ok (stab1, orbit1)) (stab, orbit);
  Ok (snd q).
Lemma simple_all fits ra cb refl fuel fund non_stab stab orbit : extend_simple fits ra cb refl fuel fund non_stab stab orbit = extend_all fits ra cb refl fuel (fun _ i => vget fund i) non_stab stab orbit.
Proof. reflexivity. Qed.
Lemma gens_all fits as_int ra cb refl fuel r non_stab stab orbit : extend_gens fits as_int ra cb refl fuel r non_stab stab orbit = extend_all fits ra cb refl fuel (fun stab i => wall_vector fits as_int cb r (members stab) i) non_stab stab orbit.
Proof. reflexivity. Qed.

Section Iter.
Variable fits : Z -> bool.
Notation E := (overflows fits).
Variables (r n : nat) (al be : nat -> list Z) (C : nat -> nat -> Z).
Hypothesis La : forall i, (i < n)%nat -> length (al i) = r.
Hypothesis Lb : forall i, (i < n)%nat -> length (be i) = r.
Hypothesis HC : forall i j, (i < n)%nat -> (j < n)%nat -> dot r (al i) (be j) = C i j.
Hypothesis gd : good n C.
Hypothesis gd' : good n (flip C).
Variable P : list (list Z).
Hypothesis PN : NoDup P.
Hypothesis PU : forall w, In w P <-> up n (flip C) w.
Notation act := (act_by r al be).
Notation sv i := (reflect_at r (al i) (be i)).
Variable pos : nat -> nat.
Variable N : nat.
Variable lab : list nat.
Hypothesis lab_n : forall x, In x lab -> (pos x < n)%nat.
Hypothesis lab_N : forall x, In x lab -> (x < N)%nat.
Hypothesis inj : forall x y, In x lab -> In y lab -> pos x = pos y -> x = y.
Variables ra cb : nat -> res (list Z).
Hypothesis ra_ok : forall x, In x lab -> ra x = Ok (al (pos x)).
Hypothesis cb_ok : forall x, In x lab -> cb x = Ok (be (pos x)).
Variable refl : nat -> list Z -> res (list Z).
Hypothesis refl_ok : forall x v, In x lab -> length v = r -> gives (refl x v) (eq (sv (pos x) v)) E.
Variable fuel : nat.
Hypothesis fuel_ok : (length P < fuel)%nat.
Variable evec : bset -> nat -> res (list Z).
Hypothesis evec_ok : forall st i, length st = N -> (forall x, In x (members st) -> In x lab) -> In i lab -> ~ In i (members st) ->
  gives (evec st i) (fun e => length e = r /\ 0 < dot r e (be (pos i)) /\ forall x, In x (members st) -> dot r e (be (pos x)) = 0) E.
Variable v : list Z.
Hypothesis Lv : length v = r.
Hypothesis Dv : forall x, In x lab -> 0 <= dot r v (be (pos x)).
Variables (non_stab : list nat) (stab : bset).
Hypothesis Ls : length stab = N.
Hypothesis stab_ok : forall x, In x (members stab) <-> In x lab /\ dot r v (be (pos x)) = 0.
Hypothesis non_ok : forall x, In x non_stab <-> In x lab /\ dot r v (be (pos x)) <> 0.
Hypothesis non_nd : NoDup non_stab.
Definition reached (gens : list nat) (O : list (list Z)) : Prop := NoDup O /\ forall x, In x O <-> exists u, Forall (inq pos gens) u /\ x = act u v.
Lemma reached_lengths gens O : reached gens O -> Forall (fun x => length x = r) O.
Proof. intros (_ & H). apply Forall_forall. intros x I. apply H in I. destruct I as (u & _ & ->). apply act_length, Lv. Qed.
Lemma fixes_v u : Forall (inq pos (members stab)) u -> act u v = v.
Proof.
  intros F. induction F as [|k w Hk F IH]; [reflexivity|]. cbn [act_by fold_right]. fold (act w v). rewrite IH. destruct Hk as (x & Ix & Ek). apply stab_ok in Ix. unfold reflect_at. rewrite <- Ek, (proj2 Ix).
  apply vec_ext; [rewrite away_length; lia|]. intros q Hq. rewrite away_length in Hq. unfold away. rewrite co_map by exact Hq. lia.
Qed.
Theorem extend_all_run : gives (extend_all fits ra cb refl fuel evec non_stab stab [v]) (reached lab) E.
Proof.
  unfold extend_all. apply (gives_bind _ _ (fun q => reached lab (snd q))).
  - apply (gives_upto0 (fun k q => length (fst q) = N /\ (forall x, In x (members (fst q)) <-> In x (members stab) \/ In x (firstn k non_stab)) /\ reached (members (fst q)) (snd q))); cbn [fst snd].
    + split; [exact Ls|]. split; [intros x; cbn; tauto|]. split; [constructor; [intros []|constructor]|]. intros x. split.
      * intros [<-|[]]. exists []. split; [constructor|reflexivity].
      * intros (u & F & ->). left. symmetry. apply fixes_v, F.
    + intros k [st O] Hk; cbn [fst snd]; intros (Lst & Mst & RO). destruct (get_some non_stab k Hk) as [i Gi]. rewrite (vget_ok _ _ _ Gi). cbn [bind]. pose proof (get_In _ _ _ Gi) as Ii. pose proof (proj1 (non_ok i) Ii) as [Ilab Inz].
      assert (Slab : forall x, In x (members st) -> In x lab). { intros x Ix. apply Mst in Ix. destruct Ix as [Ix|Ix]; [apply stab_ok in Ix; tauto|]. apply non_ok. rewrite <- (firstn_skipn k non_stab). apply in_or_app. left. exact Ix. }
      assert (Inot : ~ In i (members st)). { intros Ix. apply Mst in Ix. destruct Ix as [Ix|Ix]; [apply stab_ok in Ix; tauto|]. destruct (In_get _ _ Ix) as [q Gq]. pose proof (get_lt _ _ _ Gq) as Hq. rewrite firstn_length in Hq.
        assert (get non_stab q = Some i). { unfold get in *. rewrite <- (firstn_skipn k non_stab). rewrite nth_error_app1 by (rewrite firstn_length; lia). exact Gq. }
        assert (q = k); [|lia]. apply (proj1 (NoDup_nth_error non_stab) non_nd); [lia|]. unfold get in *. congruence. }
      eapply gives_bind; [apply (evec_ok st i Lst Slab Ilab Inot)|]. intros e (Le & Pe & Ze).
      destruct (bmem_put st i true ltac:(rewrite Lst; apply lab_N, Ilab)) as (st1 & Ep & Lst1 & Gst1). rewrite Ep. cbn [bind].
      assert (M1 : forall x, In x (members st1) <-> x = i \/ In x (members st)).
      { intros x. rewrite !members_in, Gst1. destruct (Nat.eqb_spec x i) as [->|Q]; [tauto|]. split; [auto|]. intros [->|H]; [tauto|exact H]. }
      assert (L1 : forall x, In x (members st1) -> In x lab) by (intros x Ix; apply M1 in Ix; destruct Ix as [->|Ix]; auto).
      assert (Zx : forall x, In x (members st1) -> pos x <> pos i -> dot r e (be (pos x)) = 0) by (intros x Ix Q; apply M1 in Ix; destruct Ix as [->|Ix]; [tauto|apply Ze, Ix]).
      assert (De : qdom r be (inq pos (members st1)) e). { intros q (x & Ix & <-). apply M1 in Ix. destruct Ix as [->|Ix]; [lia|]. rewrite (Ze x Ix). lia. }
      assert (Rf : forall x v, In x (members st1) -> length v = r -> gives (refl x v) (eq (sv (pos x) v)) E) by (intros x w Ix; apply refl_ok, L1, Ix).
      eapply gives_bind; [apply (basic_orbit_run fits r n al be C La Lb HC gd gd' P PN PU pos (members st1)); auto; apply M1; left; reflexivity|].
      intros l Cl. destruct (words_exist r al be pos (members st1) e Le l (proj1 Cl) (length l) (le_n _)) as (ws & Wd).
      assert (Hl : (1 <= length l)%nat). { destruct Cl as ((( y & G & _) & _) & _). apply get_lt in G. lia. }
      eapply gives_bind; [apply (extend_run fits r al be pos (members st1) e Le refl Rf l ws O Wd Hl (reached_lengths _ _ RO))|]. intros O1 <-. apply gives_ok.
      cbn [fst snd]. split; [lia|]. split.
      * intros x. rewrite M1, Mst, (firstn_get non_stab k i Gi), in_app_iff. cbn. intuition.
      * destruct RO as (NO & IO). apply (extended_ok r n al be C La Lb HC gd gd' pos (members st1) (fun x Ix => lab_n x (L1 x Ix)) e Le De (inq pos (members st))) with (l := l); auto.
        -- intros q (x & Ix & <-). exists x. split; [apply M1; right; exact Ix|reflexivity].
        -- intros q (x & Ix & <-) Zq. apply M1 in Ix. destruct Ix as [->|Ix]; [lia|]. exists x. auto.
        -- intros q (x & Ix & <-). apply Ze, Ix.
        -- intros q (x & Ix & <-). apply Dv, L1, Ix.
        -- intros q (x & Ix & <-) Zq. exists x. split; [|reflexivity]. apply Mst. left. apply stab_ok. auto.
    + intros [st O]; cbn [fst snd]; intros (_ & M & NO & IO). rewrite firstn_all in M. cbn [snd]. split; [exact NO|]. intros x. rewrite IO. 
      assert (Q : forall x, In x (members st) <-> In x lab). { intros y. rewrite M, stab_ok, non_ok. destruct (Z.eq_dec (dot r v (be (pos y))) 0); tauto. }
      assert (Qq : forall k, inq pos (members st) k <-> inq pos lab k) by (intros k; split; intros (y & Iy & Ey); exists y; split; auto; apply Q, Iy).
      split; intros (u & F & Ex); exists u; (split; [|exact Ex]); (eapply Forall_impl; [|exact F]); intros k Hk; apply Qq, Hk.
  - intros q H. apply gives_ok. exact H.
Qed.
End Iter.
