(** Subquotients over the field with two elements: proofs *)

From Coq Require Import List Arith NArith ZArith Lia Bool Permutation.
From Verif Require Import VecModel VecProofs RunModel RunProofs F2Model F2Spec F2Basics F2Proofs F2Solve F2Kernel F2Section F2Ops SubqModel SubqSpec SubqProofs.
Import ListNotations.
Open Scope nat_scope.

(** combinations of selected vectors *)
Lemma positions_nodup n t : NoDup (positions_of n t).
Proof. apply NoDup_filter, seq_NoDup. Qed.
Lemma lincomb_select w c b t : (forall k, k < length b -> coord t k = false -> c k = false) ->
  (forall j k, nth_error (positions_of (length b) t) j = Some k -> w j = c k) ->
  lincomb w (map (fun k => nth k b 0%N) (positions_of (length b) t)) = lincomb c b.
Proof.
  intros HZ HW.
  assert (X : forall i, i <= length b -> lincomb w (map (fun k => nth k b 0%N) (positions_of i t)) = lincomb c (firstn i b)).
  - intros i. induction i as [|i IH]; intros Hi; [reflexivity|].
    rewrite positions_S, map_app, lincomb_app, IH by lia.
    rewrite (lincomb_firstn_S c b i (nth i b 0%N)) by (apply nth_error_nth'; lia). f_equal.
    destruct (coord t i) eqn:E; cbn [map lincomb].
    + rewrite N.lxor_0_r, Nat.add_0_r, map_length. rewrite (HW _ i); [auto|].
      assert (P : exists l, positions_of (length b) t = positions_of (S i) t ++ l).
      { unfold positions_of. replace (length b) with (S i + (length b - S i)) by lia. rewrite seq_app, filter_app. eauto. }
      destruct P as [l ->]. rewrite positions_S, E, <- app_assoc. rewrite nth_error_app2, Nat.sub_diag by lia. reflexivity.
    + rewrite HZ by (auto; lia). auto.
  - rewrite X by lia. now rewrite firstn_all.
Qed.
Definition spread (P : list nat) (c : nat -> bool) (k : nat) : bool := sum2 (length P) (fun j => (nth j P 0 =? k) && c j).
Lemma spread_in P c j k : NoDup P -> nth_error P j = Some k -> spread P c k = c j.
Proof.
  intros ND E. assert (Hj : j < length P) by (apply nth_error_Some; congruence).
  pose proof (nth_error_nth P j 0 E) as Ek. unfold spread. rewrite (sum2_single _ j); auto.
  - now rewrite Ek, Nat.eqb_refl.
  - intros i Hi N. destruct (Nat.eqb_spec (nth i P 0) k) as [X|]; [|auto]. exfalso. apply N.
    apply (proj1 (NoDup_nth P 0) ND); auto. congruence.
Qed.
Lemma spread_out P c k : ~ In k P -> spread P c k = false.
Proof.
  intros N. apply sum2_zero. intros i Hi. destruct (Nat.eqb_spec (nth i P 0) k) as [X|]; [|auto]. exfalso. apply N. rewrite <- X. now apply nth_In.
Qed.
Lemma image_xor A u v : image_of A (N.lxor u v) = N.lxor (image_of A u) (image_of A v).
Proof. unfold image_of. rewrite <- lincomb_xor. apply lincomb_ext. intros. apply coord_lxor. Qed.
Lemma image_0 A : image_of A 0 = 0%N.
Proof. apply lincomb_0. intros. apply coord_0. Qed.
Lemma image_lincomb A c b : image_of A (lincomb c b) = lincomb c (map (image_of A) b).
Proof.
  revert c. induction b as [|x b IH]; intros c; cbn [lincomb map]; [apply image_0|]. rewrite image_xor, IH. f_equal.
  destruct (c 0); [auto|apply image_0].
Qed.
(** term by term congruence *)
Lemma lincomb_modulo (W : N -> Prop) c a b : W 0%N -> (forall v w, W v -> W w -> W (N.lxor v w)) ->
  Forall2 (fun x y => W (N.lxor x y)) a b -> W (N.lxor (lincomb c a) (lincomb c b)).
Proof.
  intros W0 WX H. revert c. induction H as [|x y a b Hxy _ IH]; intros c; [exact W0|]. cbn [lincomb].
  replace (N.lxor (N.lxor (if c 0 then x else 0%N) (lincomb (fun i => c (S i)) a)) (N.lxor (if c 0 then y else 0%N) (lincomb (fun i => c (S i)) b)))
    with (N.lxor (if c 0 then N.lxor x y else 0%N) (N.lxor (lincomb (fun i => c (S i)) a) (lincomb (fun i => c (S i)) b))).
  - apply WX; [|apply IH]. destruct (c 0); auto.
  - apply coord_ext. intros i. rewrite !coord_lxor. destruct (c 0); rewrite ?coord_lxor, ?coord_0;
    repeat match goal with |- context [coord ?u i] => destruct (coord u i) end; auto.
Qed.

Section Dim.
Variable dim : nat.

Lemma sub_support n V W sp sb : represents n V sp -> represents n W sb -> (forall v, W v -> V v) ->
  forall p, coord (ss_support sb) p = true -> coord (ss_support sp) p = true.
Proof.
  intros RV RW I p Hp. assert (Ip : In p (positions_of n (ss_support sb))).
  { apply in_positions_of. split; [|auto]. apply (within_lt n (ss_support sb)); [apply (support_within n W sb RW)|auto]. }
  apply In_nth_error in Ip. destruct Ip as [k Ek].
  pose proof (space_reduced n W sb RW) as RD.
  assert (Hk : k < length (D (ss_basis sb))) by (rewrite (rd_length _ _ RD); apply nth_error_Some; congruence).
  pose proof (nth_nth_error _ k 0%N Hk) as Ex. pose proof (rd_leads _ _ RD k _ p Ex Ek) as L.
  assert (HV : V (nth k (D (ss_basis sb)) 0%N)).
  { apply I. apply (space_span n W sb RW). apply span_in. now apply nth_In. }
  apply (space_span n V sp RV) in HV. pose proof (reduced_leads _ _ _ p (space_reduced n V sp RV) HV L) as Q.
  now apply in_positions_of in Q.
Qed.
Lemma rel_support_ok n V W sp sb : n <= dim -> represents n V sp -> represents n W sb -> (forall v, W v -> V v) ->
  gives (rel_support dim sp sb) (fun r => represents_quotient n V W (mk_sq sp sb r)) sure.
Proof.
  intros Hn RV RW I. unfold rel_support. eapply gives_mono; [apply (bs_slice_ok dim n); [auto|apply (support_within n V sp RV)]|].
  intros r [Wr Hr]. split; [auto|]. split; [auto|]. split; [auto|]. cbn [sq_space sq_sub sq_rel]. split.
  - now rewrite (space_length n V sp RV).
  - intros k p E. rewrite (Hr k p E), coord_minus. assert (Ip := nth_error_In _ _ E). apply in_positions_of in Ip. destruct Ip as [_ ->]. auto.
Qed.
Lemma sq_of_lists_ok n bsp bsub : n <= dim -> Forall (sized n) bsp -> Forall (sized n) bsub ->
  (forall v, in_span (D bsub) v -> in_span (D bsp) v) ->
  gives (sq_of_lists dim bsp bsub n) (represents_quotient n (in_span (D bsp)) (in_span (D bsub))) sure.
Proof.
  intros Hn A B I. unfold sq_of_lists. eapply gives_bind; [exact (ss_of_list_ok dim n bsp Hn A)|]. intros sp RV.
  eapply gives_bind; [exact (ss_of_list_ok dim n bsub Hn B)|]. intros sb RW.
  eapply gives_bind; [exact (rel_support_ok n _ _ sp sb Hn RV RW I)|]. auto.
Qed.
Lemma sq_zero_ok n : represents_quotient n (fun v => v = 0%N) (fun v => v = 0%N) (sq_zero n).
Proof.
  split; [apply ss_zero_ok|]. split; [apply ss_zero_ok|]. split; [auto|]. split; [apply within_0|].
  intros k p E. exfalso. assert (Ip := nth_error_In _ _ E). apply in_positions_of in Ip. destruct Ip as [_ Ip]. cbn [sq_zero sq_space ss_zero ss_support] in Ip.
  now rewrite coord_0 in Ip.
Qed.
Lemma sq_apply_ok n V W q M : n <= dim -> represents_quotient n V W q -> rows M <= dim -> ncols M = n -> is_matrix (rows M) (ncols M) (cols M) ->
  gives (sq_apply dim q M) (represents_quotient (rows M) (direct_image (cols M) V) (direct_image (cols M) W)) sure.
Proof.
  intros Hn (RV & RW & I & _) Hr Hc IM. unfold sq_apply.
  eapply gives_bind; [exact (apply_ok dim n V (sq_space q) Hn RV M Hr Hc IM)|]. intros sp RV'.
  eapply gives_bind; [exact (apply_ok dim n W (sq_sub q) Hn RW M Hr Hc IM)|]. intros sb RW'.
  eapply gives_bind; [apply (rel_support_ok (rows M) _ _ sp sb Hr RV' RW')|auto].
  intros v (x & Hx & <-). exists x. auto.
Qed.

Section Quotient.
Variables (n : nat) (V W : N -> Prop) (q : subquotient).
Hypothesis Hn : n <= dim.
Hypothesis RQ : represents_quotient n V W q.

Notation sp := (sq_space q).
Notation sb := (sq_sub q).
Notation f := (positions_of n (ss_support sp)).
Notation b := (map data (ss_basis sp)).
Notation m := (length (ss_basis sp)).
Notation P := (positions_of m (sq_rel q)).
(** the representatives of basis vectors *)
Definition chosen : list N := map (fun k => nth k b 0%N) P.

Let RV : represents n V sp := proj1 RQ.
Let RW : represents n W sb := proj1 (proj2 RQ).
Let WV : forall v, W v -> V v := proj1 (proj2 (proj2 RQ)).
Let WR : within m (sq_rel q) := proj1 (proj2 (proj2 (proj2 RQ))).
Let HR : forall k p, nth_error f k = Some p -> coord (sq_rel q) k = negb (coord (ss_support sb) p) := proj2 (proj2 (proj2 (proj2 RQ))).

Lemma m_le : m <= n.
Proof. exact (space_dim_le n V sp RV). Qed.
Lemma lb : length b = m.
Proof. apply map_length. Qed.
Lemma f_nth k : k < m -> nth_error f k = Some (nth k f 0).
Proof. intros H. apply nth_error_nth'. rewrite <- (space_length n V sp RV). exact H. Qed.

(** the number of basis vectors selected *)
Lemma chosen_length : length P = sq_dimension q.
Proof.
  unfold sq_dimension, ss_dimension. set (g := positions_of n (ss_support sb)).
  rewrite (space_length n W sb RW). fold g.
  assert (X : length P + length g = length f); [|pose proof (space_length n V sp RV); lia].
  assert (NF : NoDup f) by apply positions_nodup.
  assert (PE : Permutation (map (fun k => nth k f 0) P ++ g) f).
  { apply NoDup_Permutation.
    - assert (NM : NoDup (map (fun k => nth k f 0) P)).
      { assert (HP : forall k, In k P -> k < length f) by (intros k Ik; apply in_positions_of in Ik; rewrite <- (space_length n V sp RV); lia).
        pose proof (positions_nodup m (sq_rel q)) as ND. revert HP ND. generalize P. intros l. induction l as [|x l IH]; intros HP ND; [constructor|].
        inversion ND as [|? ? N1 N2]; subst. cbn [map]. constructor.
        - intros I. apply in_map_iff in I. destruct I as (y & E & Iy). apply N1.
          replace x with y; [auto|]. apply (proj1 (NoDup_nth f 0) NF); [apply HP; now right|apply HP; now left|auto].
        - apply IH; auto. intros k Ik. apply HP. now right. }
      assert (XX : forall l1 l2 : list nat, NoDup l1 -> NoDup l2 -> (forall y, In y l1 -> ~ In y l2) -> NoDup (l1 ++ l2)).
      { intros l1 l2 A B C. induction l1 as [|y l1 IH]; [auto|]. inversion A; subst. cbn [app]. constructor.
        - rewrite in_app_iff. intros [I|I]; [auto|]. apply (C y); [now left|auto].
        - apply IH; auto. intros z Iz. apply C. now right. }
      apply XX; [auto|apply positions_nodup|]. intros p I. apply in_map_iff in I. destruct I as (k & <- & Ik).
      apply in_positions_of in Ik. destruct Ik as [Hk Ck]. rewrite (HR k _ (f_nth k Hk)) in Ck.
      intros Ig. apply in_positions_of in Ig. destruct Ig as [_ Ig]. rewrite Ig in Ck. discriminate.
    - auto.
    - intros p. rewrite in_app_iff, in_map_iff. split.
      + intros [(k & <- & Ik)|Ig].
        * apply in_positions_of in Ik. apply nth_In. rewrite <- (space_length n V sp RV). lia.
        * apply in_positions_of in Ig. apply in_positions_of. split; [lia|]. apply (sub_support n V W sp sb RV RW WV). apply Ig.
      + intros If. destruct (coord (ss_support sb) p) eqn:E.
        * right. apply in_positions_of. apply in_positions_of in If. split; [lia|auto].
        * left. apply In_nth_error in If. destruct If as [k Ek]. exists k. split; [now apply nth_error_nth|].
          assert (k < m) by (rewrite (space_length n V sp RV); apply nth_error_Some; congruence).
          apply in_positions_of. split; [auto|]. rewrite (HR k p Ek), E. auto. }
  apply Permutation_length in PE. rewrite app_length, map_length in PE. exact PE.
Qed.
Lemma chosen_size : length chosen = sq_dimension q.
Proof. unfold chosen. rewrite map_length. apply chosen_length. Qed.
Lemma chosen_nth j k : nth_error P j = Some k -> nth_error chosen j = Some (nth k b 0%N).
Proof. intros E. unfold chosen. apply (map_nth_error (fun k => nth k b 0%N)). exact E. Qed.

Lemma chosen_lincomb c : lincomb c chosen = lincomb (spread P c) b.
Proof.
  unfold chosen. rewrite <- lb. apply lincomb_select.
  - intros k Hk E. apply spread_out. rewrite lb. intros I. apply in_positions_of in I. destruct I. congruence.
  - intros j k E. symmetry. apply spread_in; [apply positions_nodup|]. rewrite lb in *. auto.
Qed.
Lemma chosen_in x : In x chosen -> V x.
Proof.
  intros I. unfold chosen in I. apply in_map_iff in I. destruct I as (k & <- & Ik). apply in_positions_of in Ik.
  apply (space_span n V sp RV). apply span_in. apply nth_In. rewrite lb. lia.
Qed.
Lemma chosen_independent c : W (lincomb c chosen) -> forall i, i < length chosen -> c i = false.
Proof.
  intros HW i Hi. rewrite chosen_lincomb in HW.
  assert (Z : lincomb (spread P c) b = 0%N).
  { apply (space_zero n W sb RW); [auto|]. intros p Hp.
    assert (Ip : In p f).
    { apply in_positions_of. split; [apply (within_lt n (ss_support sb)); [apply (support_within n W sb RW)|auto]|].
      now apply (sub_support n V W sp sb RV RW WV). }
    apply In_nth_error in Ip. destruct Ip as [k Ek]. rewrite (lincomb_at n V sp RV _ k p Ek).
    apply spread_out. intros I. apply in_positions_of in I. destruct I as [_ I]. rewrite (HR k p Ek), Hp in I. discriminate. }
  rewrite chosen_size, <- chosen_length in Hi.
  assert (Ek : nth_error P i = Some (nth i P 0)) by now apply nth_error_nth'.
  rewrite <- (spread_in P c i (nth i P 0) (positions_nodup _ _) Ek).
  assert (Hk : nth i P 0 < m) by (apply nth_error_In in Ek; apply in_positions_of in Ek; lia).
  rewrite <- (lincomb_at n V sp RV (spread P c) (nth i P 0) _ (f_nth _ Hk)), Z. apply coord_0.
Qed.

Lemma sq_toBasis_ok v : sized n v -> V (data v) -> gives (sq_toBasis dim q v) (fun w => sized (sq_dimension q) w /\
   W (N.lxor (data v) (lincomb (coord (data w)) chosen))) sure.
Proof.
  intros Sv Hv. unfold sq_toBasis, sq_mod_image. eapply gives_bind; [exact (representative_ok dim n W sb Hn RW v Sv)|].
  intros r (Sr & Hr & Zr).
  assert (Vr : V (data r)).
  { apply (space_xor_l n V sp RV (data r) (data v)); [auto|]. rewrite N.lxor_comm. auto. }
  eapply gives_bind; [exact (toBasis_ok dim n V sp Hn RV r Sr)|]. intros u (Su & Hu & Eu). destruct Su as [Wu Zu].
  eapply gives_mono; [apply (bv_slice_ok dim u); rewrite Zu; unfold ss_dimension; pose proof m_le; lia|].
  intros w [Sw Hw]. rewrite Zu in Sw, Hw. unfold ss_dimension in Sw, Hw. split; [now rewrite <- chosen_length|].
  replace (lincomb (coord (data w)) chosen) with (data r); [auto|].
  rewrite <- (Eu Vr). symmetry. unfold chosen. rewrite <- lb. apply lincomb_select.
  - intros k Hk E. rewrite lb in Hk. rewrite (Hu k _ (f_nth k Hk)). apply Zr. rewrite (HR k _ (f_nth k Hk)) in E. now apply negb_false_iff in E.
  - intros j k E. rewrite lb in E. now apply Hw.
Qed.
(** the coordinates are determined by that property *)
Lemma sq_toBasis_unique v x : sized n v -> V (data v) -> sized (sq_dimension q) x ->
  W (N.lxor (data v) (lincomb (coord (data x)) chosen)) -> sq_toBasis dim q v = Ok x.
Proof.
  intros Sv Hv Sx HW. pose proof (sq_toBasis_ok v Sv Hv) as G. destruct (sq_toBasis dim q v) as [w|]; [|contradiction].
  destruct G as [Sw Hw]. f_equal. apply (sized_ext (sq_dimension q)); auto. intros i Hi.
  assert (X : W (lincomb (fun i => xorb (coord (data w) i) (coord (data x) i)) chosen)).
  { rewrite lincomb_xor. pose proof (space_xor n W sb RW _ _ Hw HW) as X.
    replace (N.lxor (lincomb (coord (data w)) chosen) (lincomb (coord (data x)) chosen))
      with (N.lxor (N.lxor (data v) (lincomb (coord (data w)) chosen)) (N.lxor (data v) (lincomb (coord (data x)) chosen))); [auto|].
    rewrite (N.lxor_comm (data v) (lincomb (coord (data w)) chosen)), N.lxor_assoc. now rewrite lxor_cancel. }
  pose proof (chosen_independent _ X i) as Z. rewrite chosen_size in Z. specialize (Z Hi). cbv beta in Z. now apply xorb_eq in Z.
Qed.
Lemma sq_basis_ok : gives (sq_basis dim q) (fun r => Forall (sized n) r /\ map data r = chosen) sure.
Proof.
  unfold sq_basis. rewrite (positions_within dim m (sq_rel q)) by (auto; pose proof m_le; lia).
  apply (gives_each (fun i r => Forall (sized n) r /\ map data r = firstn i chosen)).
  - split; [constructor|auto].
  - intros i k r E [HS HD]. assert (Ik := nth_error_In _ _ E). apply in_positions_of in Ik. destruct Ik as [Hk _].
    destruct (nth_error (ss_basis sp) k) as [x|] eqn:Ex; [|apply nth_error_None in Ex; lia].
    assert (EG : vget (ss_basis sp) k = Ok x) by (unfold vget; change (get (ss_basis sp) k) with (nth_error (ss_basis sp) k); now rewrite Ex).
    rewrite EG. cbn [bind gives]. split.
    + apply Forall_app. split; [auto|]. constructor; [|constructor]. destruct RV as (_ & SB & _). rewrite Forall_forall in SB. apply SB.
      now apply (nth_error_In _ k).
    + rewrite map_app, HD. rewrite (firstn_S chosen i (data x)); [auto|]. rewrite (chosen_nth i k E). f_equal.
      apply nth_error_nth. now apply map_nth_error.
  - intros r [HS HD]. split; [auto|]. rewrite HD. apply firstn_all2. unfold chosen. rewrite map_length. lia.
Qed.
Lemma sq_fromBasis_ok x : gives (sq_fromBasis dim q x) (fun v => v = mk_bv (lincomb (coord (data x)) chosen) n) sure.
Proof.
  unfold sq_fromBasis, ss_dimension. eapply gives_bind; [apply (bv_unslice_ok dim x (sq_rel q) m); [pose proof m_le; lia|auto]|].
  intros y (Sy & Hy & Zy). rewrite (fromBasis_ok dim n V sp Hn RV). cbn [gives]. f_equal. symmetry. unfold chosen. rewrite <- lb. apply lincomb_select.
  - intros k _ E. now apply Zy.
  - intros j k E. rewrite lb in E. symmetry. now apply Hy.
Qed.
Lemma chosen_V c : V (lincomb c chosen).
Proof. rewrite chosen_lincomb. apply (lincomb_space n V sp RV). Qed.
Lemma sq_to_from x : sized (sq_dimension q) x ->
  gives (sq_fromBasis dim q x) (fun v => sized n v /\ V (data v) /\ sq_toBasis dim q v = Ok x) sure.
Proof.
  intros Sx. eapply gives_mono; [apply sq_fromBasis_ok|]. intros v ->. cbn [data].
  assert (Sv : sized n (mk_bv (lincomb (coord (data x)) chosen) n)).
  { split; [|auto]. apply (space_within n V sp RV). apply chosen_V. }
  split; [auto|]. split; [apply chosen_V|]. apply sq_toBasis_unique; [auto|apply chosen_V|auto|].
  cbn [data]. rewrite N.lxor_nilpotent. apply (represents_subspace n W sb RW).
Qed.
Lemma sq_from_to v : sized n v -> V (data v) ->
  gives (sq_toBasis dim q v) (fun x => gives (sq_fromBasis dim q x) (fun w => sized n w /\ W (N.lxor (data v) (data w))) sure) sure.
Proof.
  intros Sv Hv. eapply gives_mono; [now apply sq_toBasis_ok|]. intros x [Sx Hx]. eapply gives_mono; [apply sq_fromBasis_ok|].
  intros w ->. split; [|auto]. split; [|auto]. apply (space_within n V sp RV). apply chosen_V.
Qed.
Lemma sq_toBasis_eq v w : sized n v -> V (data v) -> sized n w -> V (data w) ->
  (sq_toBasis dim q v = sq_toBasis dim q w <-> W (N.lxor (data v) (data w))).
Proof.
  intros Sv Hv Sw Hw. pose proof (sq_toBasis_ok v Sv Hv) as Gv. pose proof (sq_toBasis_ok w Sw Hw) as Gw.
  destruct (sq_toBasis dim q v) as [x|] eqn:Ev; [|contradiction]. destruct (sq_toBasis dim q w) as [y|] eqn:Ew; [|contradiction].
  destruct Gv as [Sx Hx], Gw as [Sy Hy]. split.
  - intros E. injection E as ->. pose proof (space_xor n W sb RW _ _ Hx Hy) as X.
    replace (N.lxor (data v) (data w)) with (N.lxor (N.lxor (data v) (lincomb (coord (data y)) chosen)) (N.lxor (data w) (lincomb (coord (data y)) chosen))); [auto|].
    rewrite (N.lxor_comm (data w)), N.lxor_assoc. now rewrite lxor_cancel.
  - intros E. rewrite <- Ev, <- Ew. rewrite Ew. apply sq_toBasis_unique; auto.
    pose proof (space_xor n W sb RW _ _ E Hy) as X. rewrite N.lxor_assoc in X. now rewrite lxor_cancel in X.
Qed.
Lemma sq_toBasis_add v w : sized n v -> V (data v) -> sized n w -> V (data w) ->
  gives (sq_toBasis dim q v) (fun x => gives (sq_toBasis dim q w) (fun y => sq_toBasis dim q (bv_add v w) = Ok (bv_add x y)) sure) sure.
Proof.
  intros Sv Hv Sw Hw. eapply gives_mono; [now apply sq_toBasis_ok|]. intros x [Sx Hx]. eapply gives_mono; [now apply sq_toBasis_ok|].
  intros y [Sy Hy]. apply sq_toBasis_unique; [now apply sized_add|now apply (space_xor n V sp RV)|now apply sized_add|].
  unfold bv_add. cbn [data]. rewrite (lincomb_ext _ (fun i => xorb (coord (data x) i) (coord (data y) i)) chosen) by (intros; apply coord_lxor).
  rewrite lincomb_xor. pose proof (space_xor n W sb RW _ _ Hx Hy) as X.
  match goal with |- W ?u => match type of X with W ?u' => replace u with u'; [auto|] end end.
  apply coord_ext. intros i. rewrite !coord_lxor. repeat match goal with |- context [coord ?u i] => destruct (coord u i) end; auto.
Qed.
Lemma sq_size_ok : n < 64 -> sq_size q = Ok (2 ^ N.of_nat (sq_dimension q))%N.
Proof.
  intros H. unfold sq_size. assert (L : sq_dimension q < 64) by (unfold sq_dimension, ss_dimension; pose proof m_le; lia).
  apply Nat.ltb_lt in L. rewrite L, N.shiftl_1_l. reflexivity.
Qed.
Lemma sq_basis_modulo : basis_modulo V W chosen.
Proof.
  split; [apply chosen_in|]. split; [apply chosen_independent|]. intros v Hv.
  assert (Sv : sized n (mk_bv v n)) by (split; [now apply (space_within n V sp RV)|auto]).
  pose proof (sq_toBasis_ok (mk_bv v n) Sv Hv) as G. destruct (sq_toBasis dim q (mk_bv v n)) as [w|]; [|contradiction].
  exists (coord (data w)). apply G.
Qed.
End Quotient.

(** the map induced on subquotients *)
Lemma subquotientMap_ok n n' V W V' W' src dst M : n <= dim -> n' <= dim ->
  represents_quotient n V W src -> represents_quotient n' V' W' dst ->
  rows M = n' -> is_matrix n' n (cols M) ->
  (forall v, V v -> V' (image_of (cols M) v)) -> (forall v, W v -> W' (image_of (cols M) v)) ->
  gives (subquotientMap dim src dst M) (fun A => rows A = sq_dimension dst /\ is_matrix (sq_dimension dst) (sq_dimension src) (cols A) /\
    forall v, sized n v -> V (data v) -> gives (sq_toBasis dim src v) (fun x =>
      sq_toBasis dim dst (mk_bv (image_of (cols M) (data v)) n') = Ok (mk_bv (image_of (cols A) (data x)) (sq_dimension dst))) sure) sure.
Proof.
  intros Hn Hn' RS RD HR [HC HM] MV MW. set (ch := chosen src). set (ch' := chosen dst).
  assert (SZ : forall x, V x -> sized n' (mk_bv (image_of (cols M) x) n')).
  { intros x Hx. split; [|auto]. destruct RD as (RVd & _). apply (space_within n' V' _ RVd). cbn [data]. now apply MV. }
  assert (Hm : length (ss_basis (sq_space src)) <= dim) by (pose proof (m_le n V W src RS); lia).
  unfold subquotientMap. pose proof RS as (RVs & RWs & WVs & WRs & _). rewrite (positions_within dim _ (sq_rel src) Hm WRs).
  eapply gives_mono.
  - apply (gives_each (fun i A => rows A = sq_dimension dst /\ Forall2 (fun c x => within (sq_dimension dst) c /\ V' (image_of (cols M) x) /\
        W' (N.lxor (image_of (cols M) x) (lincomb (coord c) ch'))) (cols A) (firstn i ch)) _ _ _
      (fun A => rows A = sq_dimension dst /\ Forall2 (fun c x => within (sq_dimension dst) c /\ V' (image_of (cols M) x) /\
        W' (N.lxor (image_of (cols M) x) (lincomb (coord c) ch'))) (cols A) ch)).
    + split; [auto|constructor].
    + intros i k A E [HA HF]. assert (Ik := nth_error_In _ _ E). apply in_positions_of in Ik. destruct Ik as [Hk _].
      destruct (nth_error (ss_basis (sq_space src)) k) as [x|] eqn:Ex; [|apply nth_error_None in Ex; lia].
      assert (EG : vget (ss_basis (sq_space src)) k = Ok x) by (unfold vget; change (get (ss_basis (sq_space src)) k) with (nth_error (ss_basis (sq_space src)) k); now rewrite Ex).
      rewrite EG. cbn [bind]. rewrite bm_apply_ok by (unfold ncols; lia). cbn [bind].
      assert (Hx : V (data x)).
      { apply (space_span n V _ RVs). apply span_in. apply in_map. now apply (nth_error_In _ k). }
      rewrite HR. eapply gives_bind; [apply (sq_toBasis_ok n' V' W' dst Hn' RD); [now apply SZ|now apply MV]|].
      intros w [Sw Hw]. cbn [gives]. split; [auto|]. cbn [bm_addColumn cols].
      rewrite (firstn_S ch i (data x)).
      * apply Forall2_app; [auto|]. constructor; [|constructor]. split; [apply Sw|]. split; [now apply MV|exact Hw].
      * unfold ch. rewrite (chosen_nth src i k E). f_equal. apply nth_error_nth. now apply map_nth_error.
    + intros A [HA HF]. split; [auto|]. rewrite firstn_all2 in HF; [auto|]. unfold ch, chosen. rewrite map_length. lia.
  - intros A [HA HF]. split; [auto|].
    assert (WA : forall c, In c (cols A) -> within (sq_dimension dst) c).
    { clear -HF. induction HF as [|c x l r [H _] _ IH]; intros d I; [destruct I|]. destruct I as [<-|I]; auto. }
    assert (LA : length (cols A) = length ch) by (apply Forall2_nth in HF; apply HF).
    split.
    + split; [|auto]. rewrite LA. apply (chosen_size n V W src Hn RS).
    + intros v Sv Hv. eapply gives_mono; [now apply (sq_toBasis_ok n V W src Hn RS)|]. intros x [Sx Hx]. fold ch in Hx.
      apply (sq_toBasis_unique n' V' W' dst Hn' RD); [now apply SZ|now apply MV| |].
      * split; [|auto]. apply (span_within _ (cols A)); [auto|]. now exists (coord (data x)).
      * cbn [data]. fold ch'. destruct RD as (RVd & RWd & _). destruct (represents_subspace n' W' _ RWd) as (W0 & WX & _).
        change (lincomb (coord (image_of (cols A) (data x))) ch') with (image_of ch' (image_of (cols A) (data x))).
        unfold image_of at 3. rewrite image_lincomb.
        (* image of v is congruent to the image of the combination of chosen vectors *)
        apply MW in Hx. rewrite image_xor, image_lincomb in Hx.
        assert (X : W' (N.lxor (lincomb (coord (data x)) (map (image_of (cols M)) ch)) (lincomb (coord (data x)) (map (image_of ch') (cols A))))).
        { apply lincomb_modulo; auto. clear -HF. induction HF as [|c y l r (_ & _ & H) _ IH]; cbn [map]; constructor; auto. }
        pose proof (WX _ _ Hx X) as Y. rewrite N.lxor_assoc in Y. now rewrite lxor_cancel in Y.
Qed.
End Dim.
