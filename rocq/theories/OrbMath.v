(** Stabilisers of dominant vectors, coset representatives and layers of orbits. *)

From Coq Require Import List Arith ZArith Bool Lia Permutation.
From Verif Require Import MatSpec MatLin MatProofs LieTypeSpec RootSpec RootBase RootMath RootForm RootFin RootCo RootUniq DatSpec DatMath.
Import ListNotations.
Local Open Scope Z_scope.

Section Orb.
Variables (r n : nat) (al be : nat -> list Z) (C : nat -> nat -> Z).
Hypothesis La : forall i, (i < n)%nat -> length (al i) = r.
Hypothesis Lb : forall i, (i < n)%nat -> length (be i) = r.
Hypothesis HC : forall i j, (i < n)%nat -> (j < n)%nat -> dot r (al i) (be j) = C i j.
Hypothesis gd : good n C.
Hypothesis gd' : good n (flip C).
Notation act := (act_by r al be).
Notation cact := (act_by r be al).
Notation sv i := (reflect_at r (al i) (be i)).
Notation coemb := (comb r n be).
Notation letters := (Forall (fun i => (i < n)%nat)).

Lemma exchange_in (Q : nat -> Prop) ww j : letters ww -> Forall Q ww -> (j < n)%nat -> up n C (opp (word_act n C ww (basis n j))) ->
  exists w', letters w' /\ Forall Q w' /\ length w' = (length ww - 1)%nat /\ (0 < length ww)%nat /\ forall v, length v = r -> act (ww ++ [j]) v = act w' v.
Proof.
  intros H HQ Hj. revert HQ. induction H as [|i ww Hi H IH]; intros HQ U.
  - exfalso. cbn in U. apply (up_not_opp n C _ (up_simple n C j Hj) U).
  - set (u := word_act n C ww (basis n j)) in *. assert (Rc : root_coroot n C u (word_act n (flip C) ww (basis n j))) by (apply rc_word; [exact H|apply rc_simple; exact Hj]).
    destruct (up_dec n C gd u (ex_intro _ _ Rc)) as [P|P].
    + destruct (list_eq_dec Z.eq_dec u (basis n i)) as [E|N].
      * exists ww. split; [exact H|]. split; [apply (Forall_inv_tail HQ)|]. split; [cbn; lia|]. split; [cbn; lia|]. intros v L.
        (* the lemma without Q gives the same word *)
        cbn [app]. cbn [act_by fold_right]. fold (act (ww ++ [j]) v). rewrite act_app. cbn [act_by fold_right]. fold (act ww (reflect_at r (al j) (be j) v)).
        assert (X : act ww (sv j v) = sv i (act ww v)).
        { rewrite <- (rfl_basis r n al be La Lb i (act ww v) Hi). assert (E2 : word_act n (flip C) ww (basis n j) = basis n i) by (apply (rc_unique n C gd u); [exact Rc|rewrite E; apply rc_simple; exact Hi]).
          rewrite <- E at 1. rewrite <- E2. rewrite (rfl_word r n al be C La Lb HC gd ww j _ H Hj) by (apply act_length; exact L). rewrite (rev_act r n al be C La HC gd) by assumption. reflexivity. }
        cbv beta in X. rewrite X. apply (sv_sv r n al be C La HC gd); [exact Hi|apply act_length; exact L].
      * exfalso. apply (up_not_opp n C (sreflect n C i u)); [apply (up_closed n C (proj1 gd) (small3 n C gd)); assumption|exact U].
    + destruct (IH (Forall_inv_tail HQ) P) as (w' & W1 & WQ & W2 & W3 & W4). exists (i :: w'). split; [constructor; assumption|]. split; [constructor; [apply (Forall_inv HQ)|exact WQ]|]. cbn [length]. split; [lia|]. split; [lia|]. intros v L. cbn [app act_by fold_right]. fold (act (ww ++ [j]) v). fold (act w' v). rewrite W4 by exact L. reflexivity.
Qed.

(** words with letters in Q, and vectors dominant for these *)
Section In.
Variable Q : nat -> Prop.
Hypothesis Qn : forall i, Q i -> (i < n)%nat.
Definition qdom (v : list Z) : Prop := forall j, Q j -> 0 <= dot r v (be j).
Lemma q_letters w : Forall Q w -> letters w. Proof. intros H. eapply Forall_impl; [|exact H]. exact Qn. Qed.
Lemma outside (D : nat -> nat -> Z) w j k : Forall Q w -> Q j -> co (word_act n D w (basis n j)) k = 0 \/ Q k.
Proof.
  intros F Hj. induction F as [|i w Hi F IH].
  - cbn [word_act fold_right]. destruct (Nat.eq_dec k j) as [->|N]; [right; exact Hj|]. left. destruct (Nat.lt_ge_cases j n) as [Hn|Hn]; [|pose proof (Qn j Hj); lia].
    rewrite co_basis by exact Hn. rewrite (proj2 (Nat.eqb_neq k j) N). reflexivity.
  - cbn [word_act fold_right]. fold (word_act n D w (basis n j)). set (u := word_act n D w (basis n j)) in *. unfold sreflect. destruct (Nat.eq_dec k i) as [->|N]; [right; exact Hi|].
    destruct IH as [IH|IH]; [left|right; exact IH]. rewrite co_bump by (unfold u; rewrite word_act_length; [apply Qn; exact Hi|apply basis_length]). rewrite (proj2 (Nat.eqb_neq k i) N). lia.
Qed.
Lemma q_value w j v : Forall Q w -> Q j -> qdom v -> up n C (word_act n C w (basis n j)) -> 0 <= dot r v (cact w (be j)).
Proof.
  intros F Hj D U. pose proof (q_letters w F) as W. pose proof (Qn j Hj) as Hjn.
  rewrite <- (comb_basis r n be j Hjn (Lb j Hjn)). rewrite <- (coemb_act r n al be C Lb HC) by (try exact W; apply basis_length).
  rewrite dot_comb_r. apply zsum_nonneg. intros k Hk.
  assert (N : nonneg (word_act n (flip C) w (basis n j))). { apply (co_nonneg n C gd (word_act n C w (basis n j))); [|exact U]. apply rc_word; [exact W|apply rc_simple; exact Hjn]. }
  destruct (outside (flip C) w j k F Hj) as [E|E]; [rewrite E; lia|]. specialize (N k). specialize (D k E). nia.
Qed.
(** a word in Q that sends a Q-dominant vector to a Q-dominant vector fixes it, and is a word in letters that fix it *)
Lemma stabiliser_gen m : forall w v, (length w <= m)%nat -> Forall Q w -> length v = r -> qdom v -> qdom (act w v) ->
  act w v = v /\ exists w', Forall (fun j => Q j /\ dot r v (be j) = 0) w' /\ forall x, length x = r -> act w x = act w' x.
Proof.
  induction m as [|m IH]; intros w v Hm F Lv Dv Dw.
  - destruct w; [|cbn in Hm; lia]. split; [reflexivity|]. exists []. split; [constructor|reflexivity].
  - destruct w as [|a w0] eqn:Ew0 using rev_ind; [split; [reflexivity|]; exists []; split; [constructor|reflexivity]|]. clear IHw0.
    pose proof (proj1 (Forall_app _ _ _) F) as [F1 F2]. pose proof (Forall_inv F2) as Hj. pose proof (q_letters _ F1) as W1. pose proof (Qn _ Hj) as Hjn. rewrite app_length in Hm. cbn in Hm.
    set (w1 := w0) in *. set (j := a) in *.
    assert (Rc : is_root n C (word_act n C w1 (basis n j))). { eexists. apply rc_word; [exact W1|apply rc_simple; exact Hjn]. }
    destruct (up_dec n C gd _ Rc) as [U|U].
    + assert (V0 : dot r v (be j) = 0).
      { pose proof (q_value w1 j (act (w1 ++ [j]) v) F1 Hj Dw U) as V. rewrite act_app in V. cbn [act_by fold_right] in V. rewrite (dot_act r n al be La Lb) in V; [|exact W1|apply ra_length|apply act_length; apply Lb; exact Hjn].
        rewrite (rev_act r n be al (flip C)) in V; [| | | |exact W1|]; auto; [|intros; rewrite dot_comm; apply HC; assumption].
        rewrite (dot_reflect r) in V by auto. unfold reflect_at in V. rewrite dot_away_r in V by auto. pose proof (HC j j Hjn Hjn) as E. rewrite (proj1 (proj1 gd) j Hjn) in E. rewrite (dot_comm r (be j) (al j)), E in V. specialize (Dv j Hj). lia. }
      assert (Fx : sv j v = v). { unfold reflect_at. rewrite V0. unfold away. apply vec_ext; [rewrite map_length, seq_length; lia|]. intros k Hk. rewrite map_length, seq_length in Hk. rewrite co_map by exact Hk. lia. }
      assert (E1 : act (w1 ++ [j]) v = act w1 v) by (rewrite act_app; cbn [act_by fold_right]; rewrite Fx; reflexivity).
      rewrite E1 in Dw |- *. destruct (IH w1 v ltac:(lia) F1 Lv Dv Dw) as (E2 & w' & F' & A'). split; [exact E2|]. exists (w' ++ [j]). split; [apply Forall_app; split; [exact F'|constructor; [split; assumption|constructor]]|].
      intros x Lx. rewrite !act_app. cbn [act_by fold_right]. apply A'. apply ra_length.
    + destruct (exchange_in Q w1 j W1 F1 Hjn U) as (w2 & W2 & F2' & L2 & _ & A2). rewrite A2 in Dw |- * by exact Lv. destruct (IH w2 v ltac:(lia) F2' Lv Dv Dw) as (E2 & w' & F' & A'). split; [exact E2|]. exists w'. split; [exact F'|]. intros x Lx. rewrite A2 by exact Lx. apply A'. exact Lx.
Qed.
Lemma stabiliser w v : Forall Q w -> length v = r -> qdom v -> act w v = v ->
  exists w', Forall (fun j => Q j /\ dot r v (be j) = 0) w' /\ forall x, length x = r -> act w x = act w' x.
Proof. intros F Lv D E. apply (stabiliser_gen (length w) w v); auto. rewrite E. exact D. Qed.
Lemma q_unique w v : Forall Q w -> length v = r -> qdom v -> qdom (act w v) -> act w v = v.
Proof. intros F Lv D D'. apply (stabiliser_gen (length w) w v); auto. Qed.
End In.
End Orb.
