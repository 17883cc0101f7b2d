(** Twisted Weyl groups: the operations on elements *)

From Coq Require Import List Arith ZArith Lia Bool.
From Verif Require Import VecModel VecProofs RunModel RunProofs MatSpec MatLin WeylModel WeylSpec TwistSpec TwistModel WeylTable WeylCheck WeylExchange WeylGroup WeylOps WeylMore WeylMake WeylExt WeylSign TwistWords TwistOrbit.
Import ListNotations.
Open Scope nat_scope.

Section Twist.
Variables (n : nat) (A : nat -> nat -> Z) (comps : list component) (W : weyl_group).
Hypothesis D : describes n A comps.
Hypothesis RM : n <= rank_max.
Hypothesis MK : make_weyl n comps = Ok W.
Notation "u ~ v" := (same n (coxeter A) u v) (at level 70).
Notation X := (X n A comps W).
Notation L w := (length (ev n (off comps) W w)).
Definition ellx (u : list nat) : nat := match element W u with Ok w => L w | Fail _ => 0 end.
Definition eqx (u v : list nat) : bool := match element W u, element W v with Ok a, Ok b => same_elt a b | _, _ => false end.
Lemma X_el u : over n u -> exists w, X w u.
Proof. intros O. pose proof (element_ok n A comps W D RM MK u O) as M. apply gives_sure in M. destruct M as (w & _ & Xw). eauto. Qed.
Lemma ell_X w u : X w u -> L w = ellx u.
Proof. intros H. unfold ellx. now rewrite (element_is n A comps W D RM MK w u H). Qed.
Lemma ELLx u : over n u -> shortest n (coxeter A) u (ellx u).
Proof. intros O. destruct (X_el u O) as (w & H). rewrite <- (ell_X w u H). now apply (X_length n A comps W D RM MK). Qed.
Lemma EQX u v : over n u -> over n v -> (eqx u v = true <-> u ~ v).
Proof.
  intros O O'. destruct (X_el u O) as (w & H). destruct (X_el v O') as (w' & H'). unfold eqx.
  rewrite (element_is n A comps W D RM MK w u H), (element_is n A comps W D RM MK w' v H'), same_elt_ok. split.
  - intros <-. now apply (X_eq n A comps W D RM MK w).
  - intros E. apply (X_unique n A comps W D RM MK _ _ v); [|auto]. now apply (X_same n A comps W D RM MK _ u).
Qed.
Lemma Cart : Cartan_like n A.
Proof.
  destruct (matrix_like n A comps D RM) as [C1 C2]. pose proof (inp_spec n A comps W D RM MK) as IS. split.
  - intros i Hi. destruct (IS i Hi) as [Q1 Q2]. specialize (C1 _ Q1). unfold inner_matrix in C1. now rewrite Q2 in C1.
  - intros i j Hi Hj N. destruct (IS i Hi) as [Q1 Q2]. destruct (IS j Hj) as [Q3 Q4]. specialize (C2 _ _ Q1 Q3 ltac:(congruence)). unfold inner_matrix in C2. now rewrite Q2, Q4 in C2.
Qed.
Notation E_same := (ell_same n (coxeter A) ellx ELLx).
Notation E_cons := (ell_cons n (coxeter A) ellx ELLx).
Notation E_snoc := (ell_snoc n (coxeter A) (cox_symm A) ellx ELLx).

Lemma lm_X w u s : X w u -> s < n -> gives (left_mult_gen W s w) (fun '(w', c) => X w' (s :: u) /\ c = (Z.of_nat (ellx (s :: u)) - Z.of_nat (ellx u))%Z) sure.
Proof.
  intros H Hs. eapply gives_imp; [|apply (left_mult_gen_ok n A comps W D RM MK w u s H Hs)]. intros [w' c] [H' ->]. split; [auto|]. now rewrite (ell_X w' _ H'), (ell_X w u H).
Qed.
Lemma rm_X w u s : X w u -> s < n -> gives (mult_gen W w s) (fun '(w', c) => X w' (u ++ [s]) /\ c = (Z.of_nat (ellx (u ++ [s])) - Z.of_nat (ellx u))%Z) sure.
Proof.
  intros H Hs. eapply gives_imp; [|apply (mult_gen_ok n A comps W D RM MK w u s H Hs)]. intros [w' c] (H' & -> & _). split; [auto|]. now rewrite (ell_X w' _ H'), (ell_X w u H).
Qed.
Lemma hd_X w u s : X w u -> s < n -> gives (has_descent W s w) (fun b => b = true <-> ellx (s :: u) < ellx u) sure.
Proof.
  intros H Hs. eapply gives_imp; [|apply (has_descent_X n A comps W D RM MK w u s H Hs)]. intros b P. pose proof H as [O _].
  destruct (X_el (s :: u)) as (w' & H'); [now apply over_cons|]. specialize (P w' H'). now rewrite (ell_X w' _ H'), (ell_X w u H) in P.
Qed.
Lemma ld_X w u : X w u -> exists o, leftDescent W w = Ok o /\
  match o with None => u ~ [] | Some s => s < n /\ ellx (s :: u) < ellx u end.
Proof.
  intros H. pose proof (X_valid n A comps W w u H) as V. pose proof (X_of_valid n A comps W D RM MK w V) as H'. rewrite (leftDescent_X n A comps W D RM MK w V). eexists. split; [reflexivity|].
  pose proof (X_eq n A comps W D RM MK w _ _ H H') as E. pose proof (ell_X w u H) as LU. rewrite <- (map_length (outp comps)) in LU. pose proof H as [O _].
  destruct (map (outp comps) (ev n (off comps) W w)) as [|s r]; [auto|]. destruct H' as [O' _]. apply over_cons in O'. destruct O' as [Hs Or]. split; [auto|].
  assert (Q : s :: u ~ r) by (apply (same_trans _ _ _ (s :: s :: r)); [now apply same_cons|now apply undo]).
  assert (OS : over n (s :: u)) by now apply over_cons. rewrite (E_same _ _ OS Q). pose proof (ell_le n (coxeter A) ellx ELLx r Or). cbn [length] in LU. lia.
Qed.
Lemma ell_zero u : over n u -> ellx u = 0 -> u ~ [].
Proof.
  intros O E. destruct (ell_word n (coxeter A) ellx ELLx u O) as (v & _ & S & Lv). rewrite E in Lv. destruct v; [auto|discriminate].
Qed.
Lemma some_descent u : over n u -> ~ u ~ [] -> exists s, s < n /\ ellx (s :: u) < ellx u.
Proof. intros O N. destruct (X_el u O) as (w & H). destruct (ld_X w u H) as ([s|] & _ & P); [eauto|contradiction]. Qed.

(** *** with a twist *)
Variable f : list nat.
Hypothesis TW : twist_of n A f.
Notation fs s := (nth s f 0).
Notation d u := (relabel f u).
Notation TI u := (twisted_involution n A f u).
Notation comm := (comm n A f).
Notation fix_ := (fixed n A f).
Lemma tw_get s : s < n -> vget f s = Ok (fs s).
Proof. intros Hs. destruct TW as [Lf _]. apply vget_at. lia. Qed.
Lemma fs_lt s : s < n -> fs s < n.
Proof. apply (f_lt n A f TW). Qed.
Lemma f_over : over n f.
Proof. destruct TW as (Lf & F & _). intros x I. apply (In_nth _ _ 0) in I. destruct I as (i & Hi & <-). apply F. lia. Qed.
Lemma tc_X w u s : X w u -> s < n -> gives (twisted_conjugate W f w s) (fun '(w', c) => X w' (s :: u ++ [fs s]) /\ c = (Z.of_nat (ellx (s :: u ++ [fs s])) - Z.of_nat (ellx u))%Z) sure.
Proof.
  intros H Hs. unfold twisted_conjugate. eapply gives_run; [apply (lm_X w u s H Hs)|]. intros [w1 c1] [H1 ->]. rewrite tw_get by auto. cbn [bind].
  eapply gives_run; [apply (rm_X w1 _ (fs s) H1 (fs_lt s Hs))|]. intros [w2 c2] [H2 ->]. cbn [gives]. split; [exact H2|]. cbn [app]. lia.
Qed.
Lemma comm_dec s u : s < n -> over n u -> {comm s u} + {~ comm s u}.
Proof.
  intros Hs O. unfold TwistWords.comm. destruct (eqx (s :: u ++ [fs s]) u) eqn:E.
  - left. apply EQX in E; auto. now apply (conj_over n A f TW).
  - right. intros Q. apply EQX in Q; [congruence| |auto]. now apply (conj_over n A f TW).
Qed.
(** the test of commutation, for elements that need not be twisted involutions *)
Lemma htc_X w u s : X w u -> s < n -> gives (has_twisted_commutation W f s w) (fun b => b = true <-> (ellx (u ++ [fs s]) > ellx u <-> ellx (s :: u ++ [fs s]) < ellx (u ++ [fs s]))) sure.
Proof.
  intros H Hs. unfold has_twisted_commutation. rewrite tw_get by auto. cbn [bind]. pose proof H as [O _]. eapply gives_run; [apply (rm_X w u (fs s) H (fs_lt s Hs))|]. intros [x m] [Hx ->].
  eapply gives_run; [apply (hd_X x _ s Hx Hs)|]. intros b P. cbn [gives]. rewrite eqb_true_iff. destruct b.
  - rewrite Z.ltb_lt. split; [intros; split; [intros; now apply P|intros; lia]|]. intros Q. assert (ellx (u ++ [fs s]) > ellx u); [|lia]. apply Q. now apply P.
  - rewrite Z.ltb_ge. split; [intros; split; [intros; lia|intros Z; apply P in Z; discriminate]|]. intros Q. destruct (le_lt_dec (ellx (u ++ [fs s])) (ellx u)); [lia|].
    assert (ellx (s :: u ++ [fs s]) < ellx (u ++ [fs s])) as Z by (apply Q; lia). apply P in Z. discriminate.
Qed.
Lemma htc_TI w u s : X w u -> TI u -> s < n -> gives (has_twisted_commutation W f s w) (fun b => b = true <-> comm s u) sure.
Proof.
  intros H T Hs. eapply gives_imp; [|apply (htc_X w u s H Hs)]. intros b P. rewrite P. clear P. pose proof H as [O _].
  assert (O1 : over n (u ++ [fs s])) by (apply over_app; split; [auto|now apply over_one, fs_lt]).
  rewrite (comm_ell n A f TW eqx EQX ellx ELLx s u Hs T). pose proof (E_snoc (fs s) u (fs_lt s Hs) O). pose proof (E_cons s _ Hs O1). lia.
Qed.

(** *** lowering *)
Notation pot := (potential n A f ellx).
Lemma rebuild_step z s : (z = Z.of_nat s \/ z = (-1 - Z.of_nat s)%Z) -> letter_gen z = s.
Proof. intros [->| ->]; unfold letter_gen; [rewrite (proj2 (Z.ltb_ge _ _)) by lia|rewrite (proj2 (Z.ltb_lt _ _)) by lia]; lia. Qed.
Lemma lower_X w u s : X w u -> TI u -> s < n -> ellx (s :: u) < ellx u ->
  gives (lower W f s w) (fun '(z, w') => exists u', X w' u' /\ TI u' /\ letter_gen z = s /\ apply_letter f z u' ~ u /\ ellx u' < ellx u /\ pot u = (pot u' + 4)%Z /\
    ((z <? 0)%Z = true <-> ~ comm s u)) sure.
Proof.
  intros H T Hs DS. pose proof H as [O _]. unfold lower. eapply gives_run; [apply (htc_TI w u s H T Hs)|]. intros c P. destruct c.
  - assert (CM : comm s u) by now apply P. eapply gives_run; [apply (lm_X w u s H Hs)|]. intros [x y] [Hx _]. cbn [gives]. exists (s :: u). split; [auto|].
    split; [now apply (TI_comm n A f TW)|]. assert (LG : letter_gen (Z.of_nat s) = s) by (apply rebuild_step; auto). split; [auto|]. unfold apply_letter. rewrite LG.
    rewrite (proj2 (Z.ltb_ge _ _)) by lia. split; [now apply undo|]. split; [lia|]. split; [|split; [discriminate|tauto]].
    pose proof (potential_comm n A f Cart TW ellx ELLx s u Hs T CM) as Q. rewrite (proj2 (Nat.ltb_lt _ _) DS) in Q. lia.
  - assert (CM : ~ comm s u) by (intros Q; apply P in Q; discriminate). eapply gives_run; [apply (tc_X w u s H Hs)|]. intros [x y] [Hx _]. cbn [gives].
    exists (s :: u ++ [fs s]). split; [auto|]. split; [now apply (TI_conj n A f TW)|]. assert (LG : letter_gen (-1 - Z.of_nat s) = s) by (apply rebuild_step; auto). split; [auto|].
    unfold apply_letter. rewrite LG. rewrite (proj2 (Z.ltb_lt _ _)) by lia. split.
    + change (s :: (s :: u ++ [fs s]) ++ [fs s]) with ([s; s] ++ (u ++ [fs s]) ++ [fs s]). rewrite <- (app_assoc u). apply (same_app _ _ [s; s] []); [now apply same_square|]. apply same_undo. now apply fs_lt.
    + destruct (conj_ell n A f TW eqx EQX ellx ELLx s u Hs T CM) as [Q _]. specialize (Q DS). split; [lia|]. split; [|split; auto].
      pose proof (potential_conj n A f Cart TW eqx EQX ellx ELLx s u Hs T) as R. rewrite (proj2 (Nat.ltb_lt _ _) DS) in R.
      destruct (eqx (s :: u ++ [fs s]) u) eqn:E; [|lia]. apply EQX in E; auto; [contradiction|]. now apply (conj_over n A f TW).
Qed.

(** *** expressions *)
Definition up (u : list nat) (zs : list Z) : list nat := fold_right (apply_letter f) u zs.
Lemma apply_same z u v : u ~ v -> apply_letter f z u ~ apply_letter f z v.
Proof. intros E. unfold apply_letter. destruct (z <? 0)%Z; apply same_cons; [now apply same_app_r|auto]. Qed.
Lemma apply_over z u : over n (apply_letter f z u) -> letter_gen z < n /\ over n u.
Proof. unfold apply_letter. destruct (z <? 0)%Z; rewrite over_cons; [rewrite over_app|]; tauto. Qed.
Lemma apply_cancel z u v : letter_gen z < n -> apply_letter f z u ~ apply_letter f z v -> u ~ v.
Proof.
  intros H. unfold apply_letter. destruct (z <? 0)%Z; intros E.
  - apply (same_cancel_l n (coxeter A) _ _ [letter_gen z]) in E; [|now apply over_one]. apply same_cancel_r in E; [auto|]. now apply over_one, fs_lt.
  - apply (same_cancel_l n (coxeter A) _ _ [letter_gen z]) in E; [auto|now apply over_one].
Qed.
Lemma up_same zs u v : u ~ v -> up u zs ~ up v zs.
Proof. intros E. induction zs as [|z zs IH]; [auto|]. cbn. now apply apply_same. Qed.
Lemma up_app u a b : up u (a ++ b) = up (up u b) a.
Proof. apply fold_right_app. Qed.
Lemma last_split {T} (l a b : list T) z : l ++ [z] = a ++ b -> (b = [] /\ a = l ++ [z]) \/ exists b', b = b' ++ [z] /\ l = a ++ b'.
Proof.
  intros E. destruct b as [|x b] using rev_ind; [left; rewrite app_nil_r in E; auto|right]. clear IHb. rewrite app_assoc in E. apply app_inj_tail in E. destruct E as [E ->]. eauto.
Qed.

Section Loop.
Variable Pk : nat -> list nat -> Prop.
Hypothesis PKS : forall s u v, over n u -> u ~ v -> Pk s u -> Pk s v.
Definition partial (u : list nat) (zs : list Z) (w : list nat) : Prop :=
  exists v, X w v /\ TI v /\ up v zs ~ u /\ (forall a b, zs = a ++ b -> TI (up v b)) /\ pot u = (pot v + 4 * Z.of_nat (length zs))%Z /\
    forall a z b, zs = a ++ z :: b -> Pk (letter_gen z) (up v (z :: b)).
Lemma partial_start w u : X w u -> TI u -> partial u [] w.
Proof.
  intros H T. exists u. split; [auto|]. split; [auto|]. split; [apply same_refl|]. split; [|split; [cbn; lia|intros a z b E; destruct a; discriminate]].
  intros a b E. symmetry in E. apply app_eq_nil in E. destruct E as [_ ->]. exact T.
Qed.
Lemma partial_step u zs w s : partial u zs w -> s < n -> (forall v, X w v -> ellx (s :: v) < ellx v /\ Pk s v) ->
  gives (lower W f s w) (fun '(z, w') => partial u (zs ++ [z]) w' /\ L w' < L w) sure.
Proof.
  intros (v & H & T & U & AL & PT & PK) Hs DS. destruct (DS v H) as [DS1 DS2]. pose proof H as [Ov _]. eapply gives_imp; [|apply (lower_X w v s H T Hs DS1)].
  intros [z w'] (v' & H' & T' & LG & AP & LE & PP & _). split; [|rewrite (ell_X w' v' H'), (ell_X w v H); auto]. exists v'. split; [auto|]. split; [auto|]. split; [|split; [|split]].
  - rewrite up_app. apply (same_trans _ _ _ (up v zs)); [|auto]. now apply up_same.
  - intros a b E. destruct (last_split _ _ _ _ E) as [[-> _]|(b' & -> & E')]; [exact T'|]. rewrite up_app. apply (TI_same n A f TW (up v b')); [now apply (AL a)|]. apply up_same, same_sym, AP.
  - rewrite app_length. cbn [length]. lia.
  - intros a y b E. destruct (last_split _ _ _ _ E) as [[Q _]|(b' & E1 & E')]; [discriminate|]. destruct b' as [|y' b'].
    + cbn in E1. injection E1 as -> ->. cbn [up fold_right]. rewrite LG. apply (PKS s v); [auto|now apply same_sym|auto].
    + cbn in E1. injection E1 as -> ->. change (y' :: b' ++ [z]) with ((y' :: b') ++ [z]). rewrite up_app.
      apply (PKS _ (up v (y' :: b'))); [|apply up_same, same_sym, AP|now apply (PK a)]. apply (AL a). exact E'.
Qed.
Lemma partial_end u zs w : partial u zs w -> w = w_id W -> rebuild f zs ~ u /\ stepwise n A f zs /\ pot u = (pot [] + 4 * Z.of_nat (length zs))%Z /\
    forall a z b, zs = a ++ z :: b -> Pk (letter_gen z) (rebuild f (z :: b)).
Proof.
  intros (v & H & T & U & AL & PT & PK) ->. assert (E : v ~ []) by (apply (X_eq n A comps W D RM MK (w_id W)); [auto|apply (X_id n A comps W D RM MK)]).
  split; [|split; [|split]].
  - apply (same_trans _ _ _ (up v zs)); [|auto]. apply (up_same zs [] v). now apply same_sym.
  - intros a b Q. assert (TB : TI (rebuild f b)) by (apply (TI_same n A f TW (up v b)); [now apply (AL a)|now apply (up_same b v [])]). split; [apply TB|auto].
  - rewrite PT. now rewrite (potential_same n A f Cart ellx ELLx v [] E (proj1 T)).
  - intros a z b Q. apply (PKS _ (up v (z :: b))); [|now apply (up_same (z :: b) v [])|now apply (PK a)]. apply (AL a). exact Q.
Qed.
End Loop.
Definition drop (s : nat) (u : list nat) : Prop := s < n /\ ellx (s :: u) < ellx u.
Definition first_drop (s : nat) (u : list nat) : Prop := drop s u /\ forall t, t < s -> ~ drop t u.
Lemma drop_same s u v : over n u -> u ~ v -> drop s u -> drop s v.
Proof. intros O E [Hs P]. split; [auto|]. rewrite <- (E_same u v O E). rewrite <- (E_same (s :: u) (s :: v)); [auto|now apply over_cons|now apply same_cons]. Qed.
Lemma first_drop_same s u v : over n u -> u ~ v -> first_drop s u -> first_drop s v.
Proof.
  intros O E [P Q]. split; [now apply (drop_same s u)|]. intros t Ht R. apply (Q t Ht). apply (drop_same t v); [|now apply same_sym|auto]. now apply (same_over _ _ _ _ E).
Qed.
Notation expression u zs Pk := (rebuild f zs ~ u /\ stepwise n A f zs /\ pot u = (pot [] + 4 * Z.of_nat (length zs))%Z /\ forall a z b, zs = a ++ z :: b -> Pk (letter_gen z) (rebuild f (z :: b))).
Lemma id_of w : X w [] -> w = w_id W.
Proof. intros H. apply (X_unique n A comps W D RM MK _ _ [] H). apply (X_id n A comps W D RM MK). Qed.
Definition ld (w : list nat) : option nat := match leftDescent W w with Ok o => o | Fail _ => None end.
Lemma ld_ok w u : X w u -> leftDescent W w = Ok (ld w).
Proof. intros H. destruct (ld_X w u H) as (o & E & _). unfold ld. now rewrite E. Qed.
Lemma ld_some w s : ld w = Some s -> forall v, X w v -> ellx (s :: v) < ellx v /\ drop s v.
Proof. intros E v H. destruct (ld_X w v H) as (o & E' & P). unfold ld in E. rewrite E' in E. subst o. split; [apply P|exact P]. Qed.
Lemma ld_none w u : X w u -> ld w = None -> w = w_id W.
Proof. intros H E. destruct (ld_X w u H) as (o & E' & P). unfold ld in E. rewrite E' in E. subst o. apply id_of. now apply (X_same n A comps W D RM MK _ u). Qed.
Lemma expr_loop w u fuel : X w u -> TI u -> L w <= fuel ->
  gives (run (_, _, result) <- loop fuel (fun '(s, _, _) => Ok (defined s)) (fun '(s, tw, result) =>
    run (z, tw) <- lower W f (gen_of s) tw;
    run s <- leftDescent W tw;
    Ok (s, tw, result ++ [z])) (ld w, w, []); Ok result) (fun zs => expression u zs drop) sure.
Proof.
  intros H T HF. eapply (gives_run _ _ (fun '(_, _, zs) => expression u zs drop)); [|intros [[o x] zs] P; exact P].
  apply (gives_loop (fun '(o, w, zs) => o = ld w /\ partial drop u zs w) (fun '(_, w, _) => L w) (fun '(o, _, _) => defined o)).
  - split; [auto|]. now apply partial_start.
  - exact HF.
  - intros [[o x] zs] _. reflexivity.
  - intros [[o x] zs] [-> P] Q. destruct (ld x) as [s|] eqn:E; [|discriminate]. cbn [gen_of]. pose proof P as (v & Hv & _). pose proof (ld_some x s E) as DS. destruct (DS v Hv) as [D1 [Hs _]].
    split; [rewrite (ell_X x v Hv); lia|]. eapply gives_run; [apply (partial_step drop drop_same u zs x s P Hs DS)|]. intros [z x'] [P' LE]. pose proof P' as (v' & Hv' & _).
    rewrite (ld_ok x' v' Hv'). cbn [bind gives]. auto.
  - intros [[o x] zs] [-> P] Q. pose proof P as (v & Hv & _). apply (partial_end drop drop_same u zs x P). apply (ld_none x v Hv). destruct (ld x); [discriminate|auto].
Qed.
Lemma length_loop w u fuel : X w u -> TI u -> L w <= fuel -> gives (involution_length W f fuel w) (fun k => pot u = (pot [] + 4 * Z.of_nat k)%Z) sure.
Proof.
  intros H T HF. unfold involution_length. rewrite (ld_ok w u H). cbn [bind].
  eapply (gives_run _ _ (fun '(_, _, k) => exists zs, k = length zs /\ expression u zs drop)); [|intros [[o x] k] (zs & -> & P); cbn [gives]; apply P].
  apply (gives_loop (fun '(o, w, k) => o = ld w /\ exists zs, k = length zs /\ partial drop u zs w) (fun '(_, w, _) => L w) (fun '(o, _, _) => defined o)).
  - split; [auto|]. exists []. split; [auto|]. now apply partial_start.
  - exact HF.
  - intros [[o x] k] _. reflexivity.
  - intros [[o x] k] (-> & zs & -> & P) Q. destruct (ld x) as [s|] eqn:E; [|discriminate]. cbn [gen_of]. pose proof P as (v & Hv & _). pose proof (ld_some x s E) as DS. destruct (DS v Hv) as [D1 [Hs _]].
    split; [rewrite (ell_X x v Hv); lia|]. eapply gives_run; [apply (partial_step drop drop_same u zs x s P Hs DS)|]. intros [z x'] [P' LE]. pose proof P' as (v' & Hv' & _).
    rewrite (ld_ok x' v' Hv'). cbn [bind gives]. split; [|auto]. split; [auto|]. exists (zs ++ [z]). rewrite app_length. cbn [length]. split; [lia|auto].
  - intros [[o x] k] (-> & zs & -> & P) Q. pose proof P as (v & Hv & _). exists zs. split; [auto|]. apply (partial_end drop drop_same u zs x P). apply (ld_none x v Hv). destruct (ld x); [discriminate|auto].
Qed.
Lemma involution_expr_X w u fuel : X w u -> TI u -> L w <= fuel -> gives (involution_expr W f fuel w) (fun zs => expression u zs drop) sure.
Proof.
  intros H T HF. unfold involution_expr. eapply gives_run; [apply (length_loop w u fuel H T HF)|]. intros k _. rewrite (ld_ok w u H). cbn [bind]. now apply expr_loop.
Qed.
Lemma first_descent_X w u k s : X w u -> s + k = n -> (forall t, t < s -> ~ drop t u) -> ~ u ~ [] ->
  gives (first_descent W k s w) (fun r => first_drop r u) sure.
Proof.
  intros H. pose proof H as [O _]. revert s. induction k as [|k IH]; intros s E NB NZ; cbn [first_descent].
  - exfalso. destruct (some_descent u O NZ) as (r & Hr & P). apply (NB r); [lia|split; auto].
  - eapply gives_run; [apply (hd_X w u s H); lia|]. intros b P. destruct b.
    + cbn [gives]. split; [split; [lia|now apply P]|auto].
    + apply IH; [lia| |auto]. intros t Ht Q. assert (t = s \/ t < s) as [->|Q1] by lia; [destruct Q as [_ Q]; apply P in Q; discriminate|now apply (NB t)].
Qed.
Lemma canonical_X w u fuel : X w u -> TI u -> L w <= fuel -> gives (canonical_involution_expr W f fuel w) (fun zs => expression u zs first_drop) sure.
Proof.
  intros H T HF. unfold canonical_involution_expr. eapply gives_run; [apply (length_loop w u fuel H T HF)|]. intros k _.
  eapply (gives_run _ _ (fun '(_, zs) => expression u zs first_drop)); [|intros [x zs] P; exact P].
  apply (gives_loop (fun '(w, zs) => partial first_drop u zs w) (fun '(w, _) => L w) (fun '(w, _) => negb (same_elt w (w_id W)))).
  - now apply partial_start.
  - exact HF.
  - intros [x zs] _. reflexivity.
  - intros [x zs] P Q. pose proof P as (v & Hv & _). pose proof Hv as [Ov _].
    assert (NZ : ~ v ~ []) by (intros Z; apply (X_same n A comps W D RM MK x v []) in Hv; [|auto]; apply id_of in Hv; apply same_elt_ok in Hv; rewrite Hv in Q; discriminate).
    split. { destruct (some_descent v Ov NZ) as (r & _ & Q1). rewrite (ell_X x v Hv). lia. }
    rewrite (rank_is n A comps W D RM MK). eapply gives_run; [apply (first_descent_X x v n 0 Hv); [lia|lia|auto]|]. intros s FD. assert (Hs : s < n) by apply FD.
    eapply gives_run; [apply (partial_step first_drop first_drop_same u zs x s P Hs)|].
    { intros v' Hv'. assert (FD' : first_drop s v') by (apply (first_drop_same s v v'); auto; now apply (X_eq n A comps W D RM MK x)). split; [apply FD'|auto]. }
    intros [z x'] [P' LE]. cbn [gives]. auto.
  - intros [x zs] P Q. apply (partial_end first_drop first_drop_same u zs x P). apply same_elt_ok. now apply negb_false_iff.
Qed.

(** *** all expressions *)
Lemma TI_pair s u : s < n -> TI u -> TI (s :: u) -> comm s u.
Proof.
  intros Hs T [O1 E]. pose proof T as [O _]. pose proof (TI_rev n A f u T) as R. unfold TwistWords.comm. cbn [relabel map app] in E.
  apply (same_cancel_r n (coxeter A) _ _ (rev u)); [now apply over_rev|]. apply (same_trans _ _ _ []); [|apply same_sym; now apply same_inverse].
  apply (same_trans _ _ _ (s :: u ++ fs s :: d u)); [|exact E]. cbn [app]. rewrite <- app_assoc. apply same_cons, same_app_l. cbn [app]. apply same_cons, same_sym. exact R.
Qed.
Lemma step_up z v : TI v -> TI (apply_letter f z v) ->
  (pot (apply_letter f z v) <= pot v + 4)%Z /\
  (pot (apply_letter f z v) = (pot v + 4)%Z -> drop (letter_gen z) (apply_letter f z v) /\ ((z <? 0)%Z = true <-> ~ comm (letter_gen z) (apply_letter f z v))).
Proof.
  intros T T'. destruct (apply_over z v (proj1 T')) as [Hs O]. set (s := letter_gen z) in *. unfold apply_letter in *. fold s in T' |- *. destruct (z <? 0)%Z eqn:Ez.
  - pose proof (potential_conj n A f Cart TW eqx EQX ellx ELLx s v Hs T) as P. pose proof (conj_over n A f TW s v Hs O) as OC.
    destruct (eqx (s :: v ++ [fs s]) v) eqn:E; [lia|]. assert (NC : ~ comm s v) by (intros Q; apply EQX in Q; auto; congruence).
    destruct (Nat.ltb_spec (ellx (s :: v)) (ellx v)) as [DS|DS]; [lia|]. split; [lia|]. intros _. destruct (E_cons s v Hs O) as [E1|E1]; [|lia].
    destruct (conj_ell n A f TW eqx EQX ellx ELLx s v Hs T NC) as [_ Q]. specialize (Q ltac:(lia)).
    assert (SS : ellx (s :: s :: v ++ [fs s]) = ellx (s :: v)).
    { rewrite <- (TI_side n A f TW ellx ELLx s v Hs T). apply E_same; [now apply over_cons|]. now apply undo. }
    split; [split; [auto|lia]|]. split; [|auto]. intros _ CM. apply (comm_ell n A f TW eqx EQX ellx ELLx s _ Hs T') in CM.
    assert (R : s :: (s :: v ++ [fs s]) ++ [fs s] ~ v).
    { change (s :: (s :: v ++ [fs s]) ++ [fs s]) with ([s; s] ++ (v ++ [fs s]) ++ [fs s]). rewrite <- (app_assoc v). apply (same_app _ _ [s; s] []); [now apply same_square|]. apply same_undo. now apply fs_lt. }
    apply E_same in R; [lia|]. now apply (conj_over n A f TW).
  - pose proof (TI_pair s v Hs T T') as CM. pose proof (potential_comm n A f Cart TW ellx ELLx s v Hs T CM) as P.
    destruct (Nat.ltb_spec (ellx (s :: v)) (ellx v)) as [DS|DS]; [lia|]. split; [lia|]. intros _. destruct (E_cons s v Hs O) as [E1|E1]; [|lia].
    assert (SS : ellx (s :: s :: v) = ellx v) by (apply E_same; [apply over_cons; split; [auto|apply T']|now apply undo]).
    split; [split; [auto|lia]|]. split; [discriminate|]. intros NC. exfalso. apply NC. unfold TwistWords.comm in *. cbn [app]. now apply same_cons.
Qed.
Lemma stepwise_tail z zs : stepwise n A f (z :: zs) -> stepwise n A f zs /\ TI (rebuild f zs) /\ TI (rebuild f (z :: zs)).
Proof.
  intros SW. split; [|split; [apply (SW [z] zs eq_refl)|apply (SW [] (z :: zs) eq_refl)]]. intros a b E. apply (SW (z :: a) b). now rewrite E.
Qed.
Lemma stepwise_bound zs : stepwise n A f zs -> (pot (rebuild f zs) <= pot [] + 4 * Z.of_nat (length zs))%Z.
Proof.
  induction zs as [|z zs IH]; intros SW; [cbn; lia|]. destruct (stepwise_tail z zs SW) as (SW' & T & T'). specialize (IH SW'). destruct (step_up z _ T T') as [P _].
  cbn [rebuild fold_right length]. unfold rebuild in *. lia.
Qed.
(** two letters with the same generator at the same place are equal *)
Lemma letter_same z z' : letter_gen z = letter_gen z' -> (z <? 0)%Z = (z' <? 0)%Z -> z = z'.
Proof. unfold letter_gen. intros E E'. destruct (Z.ltb_spec z 0), (Z.ltb_spec z' 0); lia || discriminate. Qed.
Lemma comm_same s u v : u ~ v -> comm s u -> comm s v.
Proof.
  intros E CM. unfold TwistWords.comm in *. apply (same_trans _ _ _ u); [|auto]. apply (same_trans _ _ _ (s :: u ++ [fs s])); [|auto]. apply same_cons, same_app_r. now apply same_sym.
Qed.
Lemma canonical_least zs : forall zs' u, rebuild f zs ~ u -> stepwise n A f zs -> pot u = (pot [] + 4 * Z.of_nat (length zs))%Z ->
  (forall a z b, zs = a ++ z :: b -> first_drop (letter_gen z) (rebuild f (z :: b))) ->
  rebuild f zs' ~ u -> stepwise n A f zs' -> length zs' = length zs -> zs' = zs \/ lex_before (map letter_gen zs) (map letter_gen zs').
Proof.
  induction zs as [|z zs IH]; intros [|z' zs'] u RB SW PT FD RB' SW' LE; try discriminate; [now left|].
  destruct (stepwise_tail z zs SW) as (SW1 & T1 & T2). destruct (stepwise_tail z' zs' SW') as (SW1' & T1' & T2').
  pose proof (potential_same n A f Cart ellx ELLx _ _ RB (proj1 T2)) as PE. pose proof (potential_same n A f Cart ellx ELLx _ _ RB' (proj1 T2')) as PE'.
  pose proof (stepwise_bound zs SW1) as B1. pose proof (stepwise_bound zs' SW1') as B1'. cbn [length] in LE, PT. injection LE as LE. rewrite LE in B1'.
  change (rebuild f (z :: zs)) with (apply_letter f z (rebuild f zs)) in *. change (rebuild f (z' :: zs')) with (apply_letter f z' (rebuild f zs')) in *.
  destruct (step_up z _ T1 T2) as [Q1 Q2]. destruct (step_up z' _ T1' T2') as [Q1' Q2']. destruct (Q2 ltac:(lia)) as [DZ CZ]. destruct (Q2' ltac:(lia)) as [DZ' CZ'].
  destruct (FD [] z zs eq_refl) as [_ LST]. cbn [rebuild fold_right] in LST. fold (rebuild f zs) in LST.
  assert (EE : apply_letter f z (rebuild f zs) ~ apply_letter f z' (rebuild f zs')) by (apply (same_trans _ _ _ u); [auto|now apply same_sym]).
  apply (drop_same _ _ _ (proj1 T2') (same_sym _ _ _ _ EE)) in DZ'. cbn [map lex_before].
  destruct (lt_eq_lt_dec (letter_gen z') (letter_gen z)) as [[Q|Q]|Q]; [exfalso; now apply (LST _ Q)| |right; now left].
  assert (z' = z) as ->.
  { apply letter_same; [auto|]. rewrite Q in CZ'. apply eq_true_iff_eq. rewrite CZ, CZ'. split; intros NC CM; apply NC; eapply comm_same; eauto. now apply same_sym. }
  apply apply_cancel in EE; [|apply DZ]. destruct (IH zs' (rebuild f zs) (same_refl _ _ _) SW1 ltac:(lia)) as [->|R]; auto.
  - intros a y b E. apply (FD (z :: a) y b). now rewrite E.
  - now apply same_sym.
Qed.
End Twist.
