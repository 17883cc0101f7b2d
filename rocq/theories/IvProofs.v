(** The classes of roots are computed as specified. *)

From Coq Require Import List Arith ZArith Bool Lia Sorted Permutation.
From Verif Require Import VecModel VecProofs RunModel RunProofs MatModel MatSpec MatRing MatLin MatProofs DynBits DynkinModel LieTypeSpec
  RootModel RootSpec RootMath RootForm RootFin RootBase RootSys RootAcc RootExt RootUniq RootTop RootPerm RootProps RsfBase IvModel IvSpec.
Import ListNotations.
Local Open Scope Z_scope.
Notation sure := (fun _ : err => False).

Lemma co_awayk n v c r k : (k < n)%nat -> co (away n v c r) k = co v k - c * co r k. Proof. intros H. unfold away. rewrite co_map by exact H. reflexivity. Qed.
Lemma co_plusk n v r k : (k < n)%nat -> co (plus n v r) k = co v k + co r k. Proof. intros H. unfold plus. rewrite co_map by exact H. reflexivity. Qed.
Lemma linear_away n g v k r : linear n g (away n v k r) = away n (linear n g v) k (linear n g r).
Proof.
  apply vec_ext; [rewrite linear_length, away_length; reflexivity|]. intros j Hj. rewrite linear_length in Hj. rewrite co_awayk, !co_linear by assumption.
  replace (k * _) with (zsum n (fun i => k * (co r i * co (g i) j))) by apply zsum_mul_l.
  assert (E : forall m x y, zsum m x - zsum m y = zsum m (fun i => x i - y i)). { intros m x y. replace (zsum m x - zsum m y) with (zsum m x + -1 * zsum m y) by lia. rewrite <- zsum_mul_l, <- zsum_add. apply zsum_ext. intros; lia. }
  rewrite E. apply zsum_ext. intros i Hi. rewrite co_awayk by exact Hi. lia.
Qed.

Section Class.
Variables (n : nat) (f : nat -> nat -> Z) (c : matrix Z) (pc : bool) (s : rootsys).
Hypothesis bt : built n f c pc s.
Notation np := (num_pos s).
Notation nr := (num_roots s).
Let L := proj1 bt.
Let F := proj1 (proj2 bt).
Let H := proj1 (proj2 (proj2 bt)).
Let E := proj2 (proj2 (proj2 bt)).
Notation tinj := (top_inj n f c pc s L F H E).
Notation tminus := (top_minus n f c pc s L F H E).
Notation tref := (top_reflected n f c pc s L F H E).
Notation tnum := (top_numbers n f c pc s L F H E).

Lemma minus_eq a : minus_nr np a = (nr - 1 - a)%nat. Proof. reflexivity. Qed.
Lemma at_length a : (a < nr)%nat -> length (root_at s a) = n.
Proof. intros Ha. destruct (tnum a Ha) as (_ & _ & R). apply (root_coroot_length n f _ _ R). Qed.
Lemma ref_lt a b d : (a < nr)%nat -> (b < nr)%nat -> reflected s a b = Ok d -> (d < nr)%nat /\ root_at s d = away n (root_at s b) (value n f (root_at s b) (coroot_at s a)) (root_at s a).
Proof. intros Ha Hb Q. destruct (tref a b Ha Hb) as (d' & E' & Hd & E1 & _). rewrite E' in Q. injection Q as <-. split; assumption. Qed.

(** ** the fixed and the negated roots of a linear map are closed under their reflections *)
Section Linear.
Variables (g : nat -> list Z) (perm : list nat).
Hypothesis mv : moves s (root_at s) (linear n g) perm.
Lemma perm_at a b : (a < nr)%nat -> (b < nr)%nat -> (get perm a = Some b <-> root_at s b = linear n g (root_at s a)).
Proof.
  intros Ha Hb. destruct mv as [_ M]. destruct (M a Ha) as (b' & G & Hb' & Q). split; [intros G'; rewrite G in G'; injection G' as <-; exact Q|]. intros Q'. rewrite G. f_equal. apply tinj; [assumption|assumption|left; congruence].
Qed.
Lemma fixed_closed P : closed s P -> closed s (fun a => (a < nr)%nat /\ P a /\ get perm a = Some a).
Proof.
  intros Cl a b d (Ha & Pa & Ga) (Hb & Pb & Gb) R. destruct (ref_lt a b d Ha Hb R) as [Hd Q]. split; [exact Hd|]. split; [exact (Cl a b d Pa Pb R)|]. apply perm_at; [assumption|assumption|].
  apply perm_at in Ga; [|assumption|assumption]. apply perm_at in Gb; [|assumption|assumption]. rewrite Q, linear_away, <- Ga, <- Gb. reflexivity.
Qed.
Lemma negated_closed P : closed s P -> closed s (fun a => (a < nr)%nat /\ P a /\ get perm a = Some (nr - 1 - a)%nat).
Proof.
  intros Cl a b d (Ha & Pa & Ga) (Hb & Pb & Gb) R. destruct (ref_lt a b d Ha Hb R) as [Hd Q]. split; [exact Hd|]. split; [exact (Cl a b d Pa Pb R)|]. apply perm_at; [assumption|lia|].
  apply perm_at in Ga; [|assumption|lia]. apply perm_at in Gb; [|assumption|lia]. rewrite <- !minus_eq in *. rewrite (proj1 (proj2 (tminus d Hd))), Q, linear_away, <- Ga, <- Gb, (proj1 (proj2 (tminus a Ha))), (proj1 (proj2 (tminus b Hb))).
  apply vec_ext; [rewrite opp_length, !away_length; reflexivity|]. intros k Hk. rewrite opp_length, away_length in Hk. rewrite co_opp, !co_awayk, !co_opp by exact Hk. lia.
Qed.
End Linear.
Lemma basis_closed T (P : nat -> Prop) : length T = nr -> (forall a, bmem T a = true <-> P a) -> closed s P ->
  exists l, simple_basis s T = Ok l /\ StronglySorted lt l /\ simples n s T l.
Proof.
  intros LT HT Cl. destruct (C103_basis n f c pc s T bt LT) as (l & El & Sl & Q).
  - intros a b d Ma Mb R. rewrite HT in *. exact (Cl a b d Ma Mb R).
  - exists l. split; [exact El|]. split; [exact Sl|]. split; [|exact Q]. clear - Sl. induction Sl as [|a l Sl IH F]; constructor; [|exact IH]. intros Q. rewrite Forall_forall in F. specialize (F a Q). lia.
Qed.

(** ** sorting the roots *)
Definition states (perm : list nat) (P : nat -> Prop) (t : bset * bset * bset) : Prop :=
  let '(im, re, cx) := t in classes s P (mk_inv perm im re cx [] []).
Lemma states_ext perm (P Q : nat -> Prop) t : (forall a, (a < nr)%nat -> (P a <-> Q a)) -> states perm P t -> states perm Q t.
Proof.
  destruct t as [[im re] cx]. intros E0 (L0 & A & B & D). split; [exact L0|]. cbn [i_imag i_real i_complex i_perm] in *. split; [|split]; intros a; rewrite ?A, ?B, ?D; split; intros (Ha & Q0 & R); (split; [exact Ha|]; split; [apply E0; assumption|exact R]).
Qed.
Lemma minus_other x : (x < nr)%nat -> x <> (nr - 1 - x)%nat.
Proof. unfold num_roots. lia. Qed.
Lemma ins_im perm P im re cx x : states perm P (im, re, cx) -> (x < nr)%nat -> get perm x = Some x ->
  exists im', bins im x = Ok im' /\ states perm (fun a => P a \/ a = x) (im', re, cx).
Proof.
  intros ((L1 & L2 & L3) & A & B & D) Hx G. cbn [i_imag i_real i_complex i_perm] in *. destruct (bins_ok im x ltac:(lia)) as (im' & E1 & L' & M). exists im'. split; [exact E1|]. pose proof (minus_other x Hx) as N. split; [cbn [i_imag i_real i_complex]; lia|].
  cbn [i_imag i_real i_complex i_perm]. split; [|split]; intros a.
  - rewrite M, orb_true_iff, A, Nat.eqb_eq. split; [intros [->|(Q1 & Q2 & Q3)]; auto|]. intros (Q1 & [Q2| ->] & Q3); auto.
  - rewrite B. split; [intros (Q1 & Q2 & Q3); auto|]. intros (Q1 & [Q2| ->] & Q3); [auto|]. exfalso. rewrite G in Q3. injection Q3 as Q3. lia.
  - rewrite D. split; [intros (Q1 & Q2 & Q3); auto|]. intros (Q1 & [Q2| ->] & Q3 & Q4); [auto|]. contradiction.
Qed.
Lemma ins_re perm P im re cx x : states perm P (im, re, cx) -> (x < nr)%nat -> get perm x = Some (nr - 1 - x)%nat ->
  exists re', bins re x = Ok re' /\ states perm (fun a => P a \/ a = x) (im, re', cx).
Proof.
  intros ((L1 & L2 & L3) & A & B & D) Hx G. cbn [i_imag i_real i_complex i_perm] in *. destruct (bins_ok re x ltac:(lia)) as (im' & E1 & L' & M). exists im'. split; [exact E1|]. pose proof (minus_other x Hx) as N. split; [cbn [i_imag i_real i_complex]; lia|].
  cbn [i_imag i_real i_complex i_perm]. split; [|split]; intros a.
  - rewrite A. split; [intros (Q1 & Q2 & Q3); auto|]. intros (Q1 & [Q2| ->] & Q3); [auto|]. exfalso. rewrite G in Q3. injection Q3 as Q3. lia.
  - rewrite M, orb_true_iff, B, Nat.eqb_eq. split; [intros [->|(Q1 & Q2 & Q3)]; auto|]. intros (Q1 & [Q2| ->] & Q3); auto.
  - rewrite D. split; [intros (Q1 & Q2 & Q3); auto|]. intros (Q1 & [Q2| ->] & Q3 & Q4); [auto|]. contradiction.
Qed.
Lemma ins_cx perm P im re cx x : states perm P (im, re, cx) -> (x < nr)%nat -> get perm x <> Some x -> get perm x <> Some (nr - 1 - x)%nat ->
  exists cx', bins cx x = Ok cx' /\ states perm (fun a => P a \/ a = x) (im, re, cx').
Proof.
  intros ((L1 & L2 & L3) & A & B & D) Hx G G'. cbn [i_imag i_real i_complex i_perm] in *. destruct (bins_ok cx x ltac:(lia)) as (im' & E1 & L' & M). exists im'. split; [exact E1|]. split; [cbn [i_imag i_real i_complex]; lia|].
  cbn [i_imag i_real i_complex i_perm]. split; [|split]; intros a.
  - rewrite A. split; [intros (Q1 & Q2 & Q3); auto|]. intros (Q1 & [Q2| ->] & Q3); [auto|]. contradiction.
  - rewrite B. split; [intros (Q1 & Q2 & Q3); auto|]. intros (Q1 & [Q2| ->] & Q3); [auto|]. contradiction.
  - rewrite M, orb_true_iff, D, Nat.eqb_eq. split; [intros [->|(Q1 & Q2 & Q3)]; auto|]. intros (Q1 & [Q2| ->] & Q3); auto.
Qed.
Lemma states_none perm : states perm (fun _ => False) (repeat false nr, repeat false nr, repeat false nr).
Proof.
  assert (M : forall a, bmem (repeat false nr) a = false). { intros a. unfold bmem. destruct (nth_in_or_default a (repeat false nr) false) as [Q|Q]; [apply repeat_spec in Q; exact Q|exact Q]. }
  split; [cbn; rewrite !repeat_length; auto|]. cbn [i_imag i_real i_complex i_perm]. split; [|split]; intros a; rewrite M; split; [discriminate|intros (_ & [] & _)|discriminate|intros (_ & [] & _)|discriminate|intros (_ & [] & _)].
Qed.
(** the last part of the constructors *)
Lemma finish_ok g perm P im re cx : moves s (root_at s) (linear n g) perm -> closed s P -> states perm P (im, re, cx) ->
  exists si sr, simple_basis s im = Ok si /\ simple_basis s re = Ok sr /\ StronglySorted lt si /\ StronglySorted lt sr /\ classes s P (mk_inv perm im re cx si sr) /\ simples n s im si /\ simples n s re sr.
Proof.
  intros mv Cl St. destruct (St) as ((L1 & L2 & L3) & A & B & D). cbn [i_imag i_real i_complex i_perm] in *.
  destruct (basis_closed im _ L1 A (fixed_closed g perm mv P Cl)) as (si & E1 & S1 & Q1). destruct (basis_closed re _ L2 B (negated_closed g perm mv P Cl)) as (sr & E2 & S2 & Q2).
  exists si, sr. do 4 (split; [assumption|]). split; [|split; assumption]. split; [cbn [i_imag i_real i_complex]; auto|]. cbn [i_imag i_real i_complex i_perm]. auto.
Qed.
Theorem classify_ok g perm : moves s (root_at s) (linear n g) perm ->
  exists x, classify_roots s perm = Ok x /\ i_perm x = perm /\ classes s (fun _ => True) x /\ StronglySorted lt (i_simag x) /\ StronglySorted lt (i_sreal x) /\ simples n s (i_imag x) (i_simag x) /\ simples n s (i_real x) (i_sreal x).
Proof.
  intros mv. unfold classify_roots.
  match goal with |- context [upto nr 0 ?h ?x0] => destruct (gives_none (upto nr 0 h x0) (states perm (fun _ => True))) as ([[im re] cx] & -> & St) end.
  { eapply (gives_upto0 (fun m t => states perm (fun a => (a < m)%nat) t)).
    - eapply states_ext; [|apply states_none]. intros a Ha. split; [intros []|intros Q0; exfalso; lia].
    - intros m [[im re] cx] Hm St. destruct (proj2 mv m Hm) as (b & G & Hb & _). rewrite (vget_ok _ _ _ G). cbn [bind].
      assert (X : forall t, states perm (fun a => (a < m)%nat \/ a = m) t -> states perm (fun a => (a < S m)%nat) t) by (intros t; apply states_ext; intros; lia).
      destruct (Nat.eqb_spec b m) as [->|N1].
      + destruct (ins_im perm _ im re cx m St Hm G) as (im' & -> & Q). cbn [bind gives]. apply X, Q.
      + destruct (Nat.eqb_spec b (minus_nr np m)) as [->|N2].
        * destruct (ins_re perm _ im re cx m St Hm G) as (im' & -> & Q). cbn [bind gives]. apply X, Q.
        * destruct (ins_cx perm _ im re cx m St Hm) as (im' & -> & Q); [congruence|rewrite <- minus_eq; congruence|]. cbn [bind gives]. apply X, Q.
    - intros t. apply states_ext. intros; tauto. }
  cbn [bind]. destruct (finish_ok g perm _ im re cx mv (fun _ _ _ _ _ _ => Logic.I) St) as (si & sr & -> & -> & Q). cbn [bind]. eexists. split; [reflexivity|]. cbn [i_perm i_imag i_real i_simag i_sreal]. tauto.
Qed.
(** with a set of roots *)
Lemma perm_minus g perm a : moves s (root_at s) (linear n g) perm -> (a < nr)%nat -> forall b, get perm a = Some b -> get perm (nr - 1 - a) = Some (nr - 1 - b)%nat /\ (b < nr)%nat.
Proof.
  intros mv Ha b G. destruct (proj2 mv a Ha) as (b' & G' & Hb & Q). rewrite G in G'. injection G' as <-. split; [|exact Hb]. apply (perm_at g perm mv); [lia|lia|].
  rewrite <- !minus_eq, (proj1 (proj2 (tminus a Ha))), (proj1 (proj2 (tminus b Hb))), linear_opp, Q. reflexivity.
Qed.
Theorem sub_ok g perm sub : moves s (root_at s) (linear n g) perm -> length sub = nr -> closed s (plus_minus s sub) ->
  exists im re cx si sr, each sub (fun alpha t =>
      let '(im, re, cx) := t in
      let ma := minus_nr (num_pos s) alpha in
      run b <- vget perm alpha;
      if (b =? alpha)%nat then run im1 <- bins2 im alpha ma; Ok (im1, re, cx)
      else if (b =? ma)%nat then run re1 <- bins2 re alpha ma; Ok (im, re1, cx)
      else run cx1 <- bins2 cx alpha ma; Ok (im, re, cx1)) (repeat false nr, repeat false nr, repeat false nr) = Ok (im, re, cx) /\
   simple_basis s im = Ok si /\ simple_basis s re = Ok sr /\ StronglySorted lt si /\ StronglySorted lt sr /\ classes s (plus_minus s sub) (mk_inv perm im re cx si sr) /\ simples n s im si /\ simples n s re sr.
Proof.
  intros mv Ls Cl.
  match goal with |- context [each sub ?h ?x0] => destruct (gives_none (each sub h x0) (states perm (plus_minus s sub))) as ([[im re] cx] & -> & St) end.
  { apply (gives_bset (fun m t => states perm (fun a => (bmem sub a = true /\ (a < m)%nat) \/ (bmem sub (nr - 1 - a) = true /\ (nr - 1 - a < m)%nat)) t)).
    - eapply states_ext; [|apply states_none]. intros a Ha. split; [intros []|intros Q0; exfalso; lia].
    - intros m [[im re] cx] Hm Mm St. rewrite Ls in Hm. destruct (proj2 mv m Hm) as (b & G & Hb & _). rewrite (vget_ok _ _ _ G). cbn [bind]. destruct (perm_minus g perm m mv Hm b G) as [G' _]. pose proof (minus_other m Hm) as N0.
      assert (Hm' : (minus_nr np m < nr)%nat) by (rewrite minus_eq; lia). assert (Im : (nr - 1 - (nr - 1 - m) = m)%nat) by lia.
      match goal with |- context [states perm ?Q0] => match type of St with states perm ?P0 _ => assert (X : forall t, states perm (fun a => (P0 a \/ a = m) \/ a = minus_nr np m) t -> states perm Q0 t) end end.
      { intros t. apply states_ext. intros a Ha. rewrite minus_eq. split.
        - intros [[[[Q1 Q2]|[Q1 Q2]]| ->]| ->]; [left; split; [exact Q1|lia]|right; split; [exact Q1|lia]|left; split; [exact Mm|lia]|right; rewrite Im; split; [exact Mm|lia]].
        - intros [[Q1 Q2]|[Q1 Q2]]; [destruct (Nat.eq_dec a m) as [->|N]; [auto|left; left; left; split; [exact Q1|lia]]|]. destruct (Nat.eq_dec (nr - 1 - a) m) as [N|N]; [right; lia|left; left; right; split; [exact Q1|lia]]. }
      unfold bins2. destruct (Nat.eqb_spec b m) as [->|N1].
      + destruct (ins_im perm _ im re cx m St Hm G) as (im' & -> & Q). cbn [bind]. destruct (ins_im perm _ im' re cx (minus_nr np m) Q Hm' G') as (im2 & -> & Q2). cbn [bind gives]. apply X, Q2.
      + destruct (Nat.eqb_spec b (minus_nr np m)) as [->|N2].
        * destruct (ins_re perm _ im re cx m St Hm G) as (im' & -> & Q). cbn [bind]. destruct (ins_re perm _ im im' cx (minus_nr np m) Q Hm' G') as (im2 & -> & Q2). cbn [bind gives]. apply X, Q2.
        * destruct (ins_cx perm _ im re cx m St Hm) as (im' & -> & Q); [congruence|rewrite <- minus_eq; congruence|]. cbn [bind]. rewrite minus_eq in N2.
          destruct (ins_cx perm _ im re im' (minus_nr np m) Q Hm') as (im2 & -> & Q2); [rewrite minus_eq, G'; intros Q2; injection Q2 as Q2; lia|rewrite minus_eq, Im, G'; intros Q2; injection Q2 as Q2; lia|]. cbn [bind gives]. apply X, Q2.
    - intros m t Hm Mm. rewrite Ls in Hm. apply states_ext. intros a Ha. split; (intros [[Q1 Q2]|[Q1 Q2]]; [left|right]; split; try exact Q1; try lia).
      + destruct (Nat.eq_dec a m) as [->|N]; [congruence|lia].
      + destruct (Nat.eq_dec (nr - 1 - a) m) as [N|N]; [congruence|lia].
    - intros t. rewrite Ls. apply states_ext. intros a Ha. unfold plus_minus. split; [intros [[Q1 Q2]|[Q1 Q2]]; auto|]. intros [_ [Q|Q]]; [left|right]; (split; [exact Q|lia]). }
  destruct (finish_ok g perm _ im re cx mv Cl St) as (si & sr & E1 & E2 & Q). exists im, re, cx, si, sr. tauto.
Qed.
End Class.
