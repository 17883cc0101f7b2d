(** C176: the grading of a global Tits group at roots that need not be simple. *)

From Coq Require Import List Arith ZArith QArith Qfield Bool Lia.
From Verif Require Import RunModel RunProofs VecModel MatModel MatSpec WeylModel WeylSpec WeylExchange WeylGroup WeylOps TwistSpec RootModel RootSpec RootMath RootTop RootPerm RootProps RsfModel RsfBase RsfProofs RsfProps
  RatVecModel RatVecSpec DfSpec DfProps TgProps YvSpec YvProofs YvAct GtModel GtSpec GtMath GtTheta GtGroup GtProps WeylExt WeylTable TwistWords TwistProofs WeylSign TcSpec TcProofs TnProps TcProps GcModel GcProofs TcRoots GcFix GcPath.
Import ListNotations.
Open Scope nat_scope.

Section Props.
Variables (r n : nat) (A B C : nat -> nat -> Z) (f : list nat) (g : nat -> nat -> Z) (G : global) (c : matrix Z) (pc : bool) (rs : rootsys).
Hypothesis HG : global_of r n A B C f g G.
Hypothesis BU : built n C c pc rs.
Notation overflow := (fun e => e = Overflow).
Notation moved w u := (rev w ++ u ++ rev (relabel f (rev w))).
(** the root or its opposite is carried by [w] from the simple root [i]. When [i] is imaginary for the element moved by the cross
    actions of the letters of [w], its value there is an integer, and the answer is compact when this is odd; [M] bounds the elements on the way *)
Theorem C176_compact a q u alpha M : elt_of r n G q u a -> strong r n A B C f g q u -> alpha < num_roots rs -> (M < 2 ^ 60)%Z ->
  (forall i w v1 v2 b d, conjugate_to_simple rs alpha = Ok (i, w) -> rev w = v1 ++ v2 -> gt_cross_left G v2 a = Ok (b, d) -> sized_by M (fst b)) ->
  exists i w, i < n /\ over n w /\ conjugate_to_simple rs alpha = Ok (i, w) /\
    word_act n C w (basis n i) = (if num_pos rs <=? alpha then RootTop.root_at rs alpha else opp (RootTop.root_at rs alpha)) /\
    (imaginary n C f (moved w u) i ->
     gives (gt_compact_root G rs alpha a) (fun ans => exists q' z, crossed_word r n A B C f (rev w) q u q' /\ strong r n A B C f g q' (moved w u) /\
       (rootQ r B i q' == inject_Z z)%Q /\ ans = Z.odd z) overflow).
Proof.
  intros EA V Ha HM HS. pose proof BU as (L & F & H & E). destruct (conjugate_run n C c pc rs L F H E alpha Ha) as (i & w & Ec & Hi & W & Em & _).
  assert (O : over n w) by (intros x Hx; rewrite Forall_forall in W; now apply W).
  destruct (simple_lt n C c pc rs L F H E i Hi) as (Hp & Es & _). destruct (mv_ok n C c pc rs L F H E w (num_pos rs + i) W ltac:(lia)) as (_ & Er & _).
  exists i, w. split; [exact Hi|]. split; [exact O|]. split; [exact Ec|]. split.
  { rewrite <- Es, <- Er, Em. unfold make_positive, is_pos. destruct (num_pos rs <=? alpha); [reflexivity|]. apply (minus_ok n C c pc rs L F H E alpha Ha). }
  intros IM. rewrite (compact_follows G rs a alpha i w Ec), (C164_right G w a).
  assert (Or : over n (rev w)) by (intros x Hx; apply O; now apply in_rev).
  eapply gives_bind; [apply (C164_left r n A B C f g G HG (rev w) a q u M EA V Or HM)|].
  - intros v1 v2 b d EV Eb. exact (HS i w v1 v2 b d Ec EV Eb).
  - intros [b d] (_ & q' & EB & CW & V'). destruct (C165_compact r n A B C f g G HG b q' _ i EB V' Hi IM) as (z & Ez & GZ). eapply gives_mono; [exact GZ|]. intros ans ->. exists q', z. auto.
Qed.
Lemma fixed_opp u x : over n u -> length x = n -> fixed_by n C f u x -> fixed_by n C f u (opp x).
Proof.
  intros O L Fx i Hi. destruct HG as (_ & _ & _ & _ & _ & (TW & _)). pose proof (TwistWords.f_lt n C f TW i Hi) as Hf.
  rewrite (act_word n C u (opp x)) by (try assumption; now rewrite opp_length).
  rewrite (rw_ext n C u O (co (opp x)) (fun k => (-1) * co x k + 0 * co x k)%Z) by (try assumption; intros j _; rewrite co_opp; ring).
  rewrite (rw_lin n C u O) by assumption. rewrite <- (act_word n C u x) by assumption. rewrite Fx, co_opp by exact Hi. ring.
Qed.
Lemma fixed_end u alpha i w : over n u -> alpha < num_roots rs -> i < n -> over n w -> word_act n C w (basis n i) = (if num_pos rs <=? alpha then RootTop.root_at rs alpha else opp (RootTop.root_at rs alpha)) ->
  fixed_by n C f u (RootTop.root_at rs alpha) -> imaginary n C f (moved w u) i.
Proof.
  intros O Ha Hi Ow Ea Fa. pose proof BU as (L & F & H & E). pose proof HG as ((comps & D & RM & MK) & _ & _ & _ & _ & (TW & _)).
  assert (Fb : fixed_by n C f u (word_act n C w (basis n i))).
  { rewrite Ea. destruct (num_pos rs <=? alpha); [exact Fa|]. apply fixed_opp; [exact O|apply (MoBase.b_len n C c pc rs BU alpha Ha)|exact Fa]. }
  pose proof (fixed_path n C f (proj1 (f_cart n C F)) TW (basis n i) (basis_length n i) w u Ow O Fb) as Q.
  assert (Om : over n (moved w u)).
  { assert (Or : over n (rev w)) by (now apply over_rev). apply over_app. split; [exact Or|]. apply over_app. split; [exact O|]. apply over_rev. now apply (d_over n C f TW). }
  apply (fixed_imaginary n C f (Cart n C comps _ D RM MK) TW _ (EQX n C comps _ D RM MK) _ (ELLx n C comps _ D RM MK) i _ Hi Om Q).
Qed.
(** this is so when the root is imaginary for the twisted involution, that is, fixed by it *)
Theorem C176_imaginary a q u alpha M : elt_of r n G q u a -> strong r n A B C f g q u -> alpha < num_roots rs -> (M < 2 ^ 60)%Z ->
  (forall i w v1 v2 b d, conjugate_to_simple rs alpha = Ok (i, w) -> rev w = v1 ++ v2 -> gt_cross_left G v2 a = Ok (b, d) -> sized_by M (fst b)) ->
  fixed_by n C f u (RootTop.root_at rs alpha) ->
  gives (gt_compact_root G rs alpha a) (fun ans => exists i w q' z, i < n /\ over n w /\
    word_act n C w (basis n i) = (if num_pos rs <=? alpha then RootTop.root_at rs alpha else opp (RootTop.root_at rs alpha)) /\
    crossed_word r n A B C f (rev w) q u q' /\ strong r n A B C f g q' (moved w u) /\ imaginary n C f (moved w u) i /\
    (rootQ r B i q' == inject_Z z)%Q /\ ans = Z.odd z) overflow.
Proof.
  intros EA V Ha HM HS Fa. destruct (C176_compact a q u alpha M EA V Ha HM HS) as (i & w & Hi & O & Ec & Ea & Q).
  pose proof (fixed_end u alpha i w (proj1 (proj2 EA)) Ha Hi O Ea Fa) as IM. eapply gives_mono; [exact (Q IM)|]. intros ans (q' & z & CW & V' & Ez & Z1). exists i, w, q', z. auto 10.
Qed.
Lemma complex_not s u : s < n -> complex_for n C f s u -> ~ commutes n C f u s.
Proof.
  intros Hs (k & k' & K1 & K2 & Q) CM. pose proof (commutes_conj r n A B C f g G HG u s Hs CM) as S1. pose proof (short_same n C _ _ _ S1 K2) as K3. pose proof (short_once n C _ _ _ K1 K3). lia.
Qed.
Lemma crossed_complex q u : forall w q', over n w -> complex_path n C f w u -> crossed_word r n A B C f (rev w) q u q' -> is_diff r q' (wordQ r A B (rev w) q).
Proof.
  intros w. induction w as [|s w IH] using rev_ind; intros q' O P H; [exact H|]. rewrite rev_app_distr in *. cbn [rev app crossed_word] in *. destruct H as (p & H1 & H2). destruct (path_snoc n C f s w u P) as [P1 P2].
  assert (Hs : s < n) by (apply O, in_or_app; right; now left). assert (Ow : over n w) by (intros x Hx; apply O, in_or_app; now left).
  pose proof (proj1 H2 (complex_not s _ Hs P2)) as Q. apply (diff_trans r _ _ _ Q). change (wordQ r A B (s :: rev w) q) with (reflQ r A B s (wordQ r A B (rev w) q)). apply diff_refl_s. now apply IH.
Qed.
(** when the letters of [w] are all complex, this integer has the parity of the value of the root itself at the element *)
Theorem C176_value a q u alpha M : elt_of r n G q u a -> strong r n A B C f g q u -> num_pos rs <= alpha < num_roots rs -> (M < 2 ^ 60)%Z ->
  (forall i w v1 v2 b d, conjugate_to_simple rs alpha = Ok (i, w) -> rev w = v1 ++ v2 -> gt_cross_left G v2 a = Ok (b, d) -> sized_by M (fst b)) ->
  forall i w, conjugate_to_simple rs alpha = Ok (i, w) -> complex_path n C f w u -> fixed_by n C f u (RootTop.root_at rs alpha) ->
  gives (gt_compact_root G rs alpha a) (fun ans => exists z, (qsum n (fun k => inject_Z (co (RootTop.root_at rs alpha) k) * rootQ r B k q) == inject_Z z)%Q /\ ans = Z.odd z) overflow.
Proof.
  intros EA V Ha HM HS i w Ec P Fa. destruct (C176_compact a q u alpha M EA V (proj2 Ha) HM HS) as (i' & w' & Hi & O & Ec' & Ea & Q). rewrite Ec in Ec'. injection Ec' as <- <-.
  pose proof (fixed_end u alpha i w (proj1 (proj2 EA)) (proj2 Ha) Hi O Ea Fa) as IM. rewrite (proj2 (Nat.leb_le _ _) (proj1 Ha)) in Ea. eapply gives_mono; [exact (Q IM)|]. intros ans (q' & z & CW & _ & Ez & ->).
  pose proof (crossed_complex q u w q' O P CW) as DF. destruct HG as (_ & _ & _ & _ & _ & (_ & PR & _)).
  destruct (pair_even r (fun j => B j i) q' _ DF) as (k & Ek). fold (rootQ r B i q') in Ek. fold (rootQ r B i (wordQ r A B (rev w) q)) in Ek.
  assert (Or : over n (rev w)) by (intros x Hx; apply O; now apply in_rev).
  exists (z - 2 * k)%Z. split.
  - pose proof (value_word r n A B C PR (rev w) (basis n i) q Or (basis_length n i)) as VW. rewrite rev_involutive, Ea in VW. rewrite <- VW, (value_basis r n B i _ Hi).
    unfold Z.sub. rewrite inject_Z_plus, inject_Z_opp, <- Ez, <- Ek. ring.
  - rewrite Z.odd_sub, Z.odd_mul. cbn. now rewrite xorb_false_r.
Qed.
(** they are all complex when the root is positive, imaginary and not the sum of two positive imaginary roots *)
Theorem C176_simple_imaginary a q u alpha M : elt_of r n G q u a -> strong r n A B C f g q u -> num_pos rs <= alpha < num_roots rs -> (M < 2 ^ 60)%Z ->
  (forall i w v1 v2 b d, conjugate_to_simple rs alpha = Ok (i, w) -> rev w = v1 ++ v2 -> gt_cross_left G v2 a = Ok (b, d) -> sized_by M (fst b)) ->
  simple_imaginary n C f u (RootTop.root_at rs alpha) ->
  gives (gt_compact_root G rs alpha a) (fun ans => exists z, (qsum n (fun k => inject_Z (co (RootTop.root_at rs alpha) k) * rootQ r B k q) == inject_Z z)%Q /\ ans = Z.odd z) overflow.
Proof.
  intros EA V Ha HM HS [Fa N]. pose proof BU as (L & F & H & E). pose proof HG as ((comps & D & RM & MK) & _ & _ & _ & _ & (TW & _)).
  destruct (conjugate_run n C c pc rs L F H E alpha ltac:(unfold num_roots in Ha; lia)) as (i & w & Ec & _).
  apply (C176_value a q u alpha M EA V Ha HM HS i w Ec); [|exact Fa].
  apply (GcPath.descends_complex n C f (Cart n C comps _ D RM MK) F TW _ (EQX n C comps _ D RM MK) _ (ELLx n C comps _ D RM MK) w u (RootTop.root_at rs alpha) (proj1 V)).
  - apply (rt_up n C c pc rs L F H E). exact Ha.
  - split; [exact Fa|]. intros x z Ux Uz Fx Fz. apply N; try assumption; first [now apply (RootMath.up_root n C)|now apply (RootMath.up_nonneg n C)].
  - apply (descends_conjugate n C c pc rs L F H E alpha i w Ha Ec).
Qed.
End Props.
Print Assumptions C176_compact.
Print Assumptions C176_imaginary.
Print Assumptions C176_value.
Print Assumptions C176_simple_imaginary.
(** GL(4) with the involution inverse transpose: the highest root is reached by two complex reflections; it is compact for one element, and not for another *)
Lemma h4_sized a : (a = a1 \/ a = a2) -> forall i w v1 v2 b d, conjugate_to_simple RootProps.A 11 = Ok (i, w) -> rev w = v1 ++ v2 -> gt_cross_left H4 v2 a = Ok (b, d) -> sized_by 8 (fst b).
Proof.
  intros Qa i w v1 v2 b d Ec E Eb. assert (Q : conjugate_to_simple RootProps.A 11 = Ok (2, [0; 1])) by (vm_compute; reflexivity). rewrite Q in Ec. injection Ec as <- <-. cbn [rev app] in E.
  assert (V : v2 = [1; 0] \/ v2 = [0] \/ v2 = []).
  { clear - E. destruct v1 as [|x [|y [|z v1]]]; cbn [app] in E; [left; now symmetry|right; left; injection E as _ E; now symmetry|right; right; injection E as _ _ E; now symmetry|discriminate]. }
  destruct Qa as [-> | ->], V as [->|[->| ->]]; clear - Eb; vm_compute in Eb; injection Eb as <- <-; clear; (split; [cbn; lia|]); cbn; intros x H; intuition (subst; cbn; lia).
Qed.
Example C176_ex : global_of 4 3 (lA 4) (lA 4) g4_A g4_f h4 H4 /\ built 3 g4_A a3 false RootProps.A /\ num_pos RootProps.A <= 11 < num_roots RootProps.A /\
  (elt_of 4 3 H4 x1 [] a1 /\ strong 4 3 (lA 4) (lA 4) g4_A g4_f h4 x1 []) /\ (elt_of 4 3 H4 x2 [] a2 /\ strong 4 3 (lA 4) (lA 4) g4_A g4_f h4 x2 []) /\
  conjugate_to_simple RootProps.A 11 = Ok (2, [0; 1]) /\ complex_path 3 g4_A g4_f [0; 1] [] /\ imaginary 3 g4_A g4_f [1; 0; 2; 1] 2 /\ fixed_by 3 g4_A g4_f [] (RootTop.root_at RootProps.A 11) /\
  gt_compact_root H4 RootProps.A 11 a1 = Ok true /\ gt_compact_root H4 RootProps.A 11 a2 = Ok false /\ gt_compact_root H4 RootProps.A 0 a1 = Ok true.
Proof.
  split; [exact H4_global|]. split; [exact a3_g4|]. split; [vm_compute; lia|]. split; [split; apply a1_hyps|]. split; [split; apply a2_hyps|]. split; [vm_compute; reflexivity|].
  split; [exact (proj1 (proj2 (proj2 (proj2 (proj2 (proj2 (proj2 (proj2 (proj2 (proj2 C175_ex))))))))))|]. split; [apply (h4_imaginary 2 [1; 0; 2; 1] [0; 2; 2] [0; 2; 3] 4); vm_compute; reflexivity|].
  split; [intros i Hi; do 3 (destruct i as [|i]; [vm_compute; reflexivity|]); lia|]. split; [vm_compute; reflexivity|]. split; vm_compute; reflexivity.
Qed.
Example C176_simple_imaginary_ex : simple_imaginary 3 g4_A g4_f [] (RootTop.root_at RootProps.A 11) /\
  (forall i w v1 v2 b d, conjugate_to_simple RootProps.A 11 = Ok (i, w) -> rev w = v1 ++ v2 -> gt_cross_left H4 v2 a1 = Ok (b, d) -> sized_by 8 (fst b)) /\
  (qsum 3 (fun k => inject_Z (co (RootTop.root_at RootProps.A 11) k) * rootQ 4 (lA 4) k x1) == 1)%Q /\ (qsum 3 (fun k => inject_Z (co (RootTop.root_at RootProps.A 11) k) * rootQ 4 (lA 4) k x2) == 2)%Q.
Proof. split; [exact (proj1 (proj2 (proj2 C175_simple_imaginary_ex)))|]. split; [apply h4_sized; now left|]. split; vm_compute; reflexivity. Qed.
