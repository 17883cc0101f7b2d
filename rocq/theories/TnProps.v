(** C173 and C174: the gradings at roots that need not be simple. *)

From Coq Require Import List Arith NArith ZArith Bool Lia.
From Verif Require Import RunModel VecModel MatModel MatSpec F2Model F2Spec F2Proofs WeylModel WeylSpec WeylExchange RootModel RootSpec RootTop RootPerm RootProps DatModel DatProps DfSpec DfProps RsfModel RsfBase RsfProofs RsfProps
  TgModel TgSpec TgSem TgMath TgCoset TgProps MoBase TnModel TnSpec TnProofs TnCo.
Import ListNotations.
Open Scope nat_scope.

Lemma two_opp n G v : order_two n G (opp v) = order_two n G v.
Proof. apply xsum_ext. intros k _. now rewrite RootMath.co_opp, Z.odd_opp. Qed.
(** the root or its opposite is carried by [w] from the simple root [i], and the answer is the grading of [i] for the
    element moved by the cross actions of [w].  When [i] is imaginary for this element, a representative in the Tits group
    of the reflection in the root changes the original element by the element of order two of its coroot if the answer is
    noncompact, and fixes it if the answer is compact *)
Theorem C173_grading dim n A r G g c pc rs : tits_of dim n A r G -> twist_ok dim n A r G -> n <= dim -> signs_ok n G g -> built n A c pc rs ->
  forall u a alpha, proper_word n r u -> denotes n A r G u a -> alpha < num_roots rs ->
  exists i w b gr, i < n /\ over n w /\ word_act n A w (basis n i) = (if num_pos rs <=? alpha then root_at rs alpha else opp (root_at rs alpha)) /\
    basedTwistedConjugate_word dim G g a w = Ok b /\ coset_grading dim G g rs a alpha = Ok gr /\ gr = noncompact r G g i b /\
    ((exists v, over n v /\ element (tg_W G) v = Ok (te_w b) /\ imaginary_for n A (tg_twist G) i v) ->
     let P := flat_map (cross_by G g) (rev w) in
     let R := inverse_word (coroot2 G) P ++ cross_by G g i ++ P in
     let m := order_two n G (coroot_at rs alpha) in
     tequal n A r G (TgSem.conjugate G g R u) (Tor (if gr then m else 0%N) :: u) /\
     (m <> 0%N -> (gr = false <-> tequal n A r G (TgSem.conjugate G g R u) u))).
Proof.
  intros T K ND SG BU u a alpha Pu Da Ha. pose proof BU as (L & F & H & E). destruct (conjugate_run n A c pc rs L F H E alpha Ha) as (i & w & Ec & Hi & W & Em & _).
  assert (O : over n w) by (intros x Hx; rewrite Forall_forall in W; now apply W).
  destruct (simple_lt n A c pc rs L F H E i Hi) as (Hp & Es & Es'). destruct (mv_ok n A c pc rs L F H E w (num_pos rs + i) W ltac:(lia)) as (_ & Er & Ek).
  destruct (proj1 (C160_cross_word dim n A r G T K ND g SG w u a Pu Da O)) as (b & Eb & Db & _).
  exists i, w, b, (noncompact r G g i b). split; [exact Hi|]. split; [exact O|]. split.
  { rewrite <- Es, <- Er, Em. unfold make_positive, is_pos. destruct (num_pos rs <=? alpha); [reflexivity|]. apply (minus_ok n A c pc rs L F H E alpha Ha). }
  split; [exact Eb|]. split; [rewrite (grading_follows dim G g rs a alpha i w b Ec Eb); apply (C161_grading dim n A r G T ND g b i Hi)|]. split; [reflexivity|].
  intros IM P R m. pose proof (change dim n A r G T K ND g SG w i u a b Pu Da O Hi Eb IM) as Q. cbv zeta in Q. fold P in Q. fold R in Q.
  assert (Mm : act2 r (root2 G) (coroot2 G) w (coroot2 G i) = m).
  { rewrite (proj1 (two_act dim n A r G T w i O Hi)). rewrite <- Es', <- Ek, Em. unfold m, make_positive, is_pos. destruct (num_pos rs <=? alpha); [reflexivity|].
    destruct (minus_ok n A c pc rs L F H E alpha Ha) as (_ & _ & _ & Q0). rewrite Q0. apply two_opp. }
  rewrite Mm in Q. split; [exact Q|]. intros Nm. destruct (noncompact r G g i b).
  - split; [discriminate|]. intros Q1. exfalso. apply Nm.
    assert (Wm : within r m) by (rewrite <- Mm; apply (act_within n r _ _ (coroots_within dim n A r G T)); [exact O|now apply (coroots_within dim n A r G T)]).
    pose proof (C159_left_add dim n A r G T (mk_bv m r) u a Pu Da (Logic.conj Wm eq_refl)) as La. cbn [data] in La.
    assert (X : left_add (mk_bv m r) a = a).
    { apply (C158_equal dim n A r G T (Tor m :: u) u); [apply ok_cons; [exact Wm|exact Pu]|exact Pu|exact La|exact Da|]. eapply ts_trans; [apply ts_sym; exact Q|exact Q1]. }
    apply (f_equal (fun x => data (te_t x))) in X. unfold left_add, bv_add in X. cbn in X. apply (f_equal (N.lxor (data (te_t a)))) in X. rewrite <- N.lxor_assoc, N.lxor_nilpotent, N.lxor_0_l in X. exact X.
  - split; [|reflexivity]. intros _. eapply ts_trans; [exact Q|]. apply ts_zero.
Qed.
Print Assumptions C173_grading.
(** GL(4) with the involution inverse transpose: the highest root is imaginary for the base element *)
Lemma a3_g4 : built 3 g4_A a3 false RootProps.A.
Proof.
  assert (H : is_mx a3 3 3 g4_A) by (split; [reflexivity|]; split; [reflexivity|]; split; [reflexivity|]; intros i j Hi Hj; do 3 (destruct i as [|i]; [do 3 (destruct j as [|j]; [reflexivity|]); lia|]); lia).
  split; [lia|]. split; [|split; [exact H|vm_compute; reflexivity]]. apply (type_finite 3 _ a3 [(LieTypeModel.tA, 3)] [0; 1; 2]); [lia|exact H|vm_compute; reflexivity].
Qed.
Example C173_ex : tits_of 32 3 g4_A 4 G4 /\ twist_ok 32 3 g4_A 4 G4 /\ signs_ok 3 G4 2 /\ built 3 g4_A a3 false RootProps.A /\
  (proper_word 3 4 [Tor 9] /\ denotes 3 g4_A 4 G4 [Tor 9] (mk_te (mk_bv 9 4) [0; 0; 0])) /\
  root_at RootProps.A 11 = [1; 1; 1]%Z /\ conjugate_to_simple RootProps.A 11 = Ok (2, [0; 1]) /\
  (exists b, basedTwistedConjugate_word 32 G4 2 (mk_te (mk_bv 9 4) [0; 0; 0]) [0; 1] = Ok b /\
     exists v, over 3 v /\ element g4_W v = Ok (te_w b) /\ imaginary_for 3 g4_A (tg_twist G4) 2 v) /\
  coset_grading 32 G4 2 RootProps.A (mk_te (mk_bv 9 4) [0; 0; 0]) 11 = Ok true /\ coset_grading 32 G4 2 RootProps.A (mk_te (mk_bv 1 4) [0; 0; 0]) 11 = Ok false /\
  order_two 3 G4 (coroot_at RootProps.A 11) = 9%N.
Proof.
  split; [apply G4_tits|]. split; [apply G4_tits|]. split; [exact G4_signs2|]. split; [exact a3_g4|]. split; [apply g4_means; vm_compute; reflexivity|].
  split; [vm_compute; reflexivity|]. split; [vm_compute; reflexivity|]. split; [|vm_compute; auto].
  exists (mk_te (mk_bv 9 4) [0; 2; 2]). split; [vm_compute; reflexivity|]. exists [1; 0; 2; 1]. split; [now apply over_word|]. split; [vm_compute; reflexivity|].
  apply (g4_imaginary 2 [1; 0; 2; 1] [0; 2; 2] [0; 2; 3] 4); vm_compute; reflexivity.
Qed.

(** * C174: simple_imaginary_grading *)
Lemma each_filter (l : list nat) (p h : nat -> bool) (body : nat -> bool -> res bool) : (forall i ev, In i l -> body i ev = Ok (xorb ev (h i))) ->
  forall ev, F2Model.each (filter p l) body ev = Ok (fold_left (fun e i => xorb e (p i && h i)) l ev).
Proof.
  induction l as [|x l IH]; intros H ev; [reflexivity|]. cbn [filter fold_left]. destruct (p x); cbn [F2Model.each].
  - rewrite H by (now left). cbn [bind andb]. apply IH. intros i e I. apply H. now right.
  - cbn [andb]. rewrite xorb_false_r. apply IH. intros i e I. apply H. now right.
Qed.
Lemma fold_sum2 n h : forall ev, fold_left (fun e i => xorb e (h i)) (seq 0 n) ev = xorb ev (sum2 n h).
Proof.
  induction n as [|n IH]; intros ev; [cbn; now rewrite xorb_false_r|]. rewrite seq_S, fold_left_app, IH. cbn. now rewrite xorb_assoc.
Qed.
(** a root is noncompact when the number of compact simple roots in it, with multiplicity, is even *)
Theorem C174_formula dim n A r G g c pc rs : tits_of dim n A r G -> n <= dim -> built n A c pc rs ->
  forall a alpha, alpha < num_roots rs ->
  simple_imaginary_grading dim G g rs (te_t a) alpha = Ok (negb (Z.odd (zsum n (fun i => co (root_at rs alpha) i * Z.b2z (negb (noncompact r G g i a)))%Z))).
Proof.
  intros T ND BU a alpha Ha. pose proof BU as (L & F & H & E).
  assert (Ee : root_expr rs alpha = Ok (root_at rs alpha)).
  { pose proof (top_some n A c pc rs L H E ltac:(unfold num_roots in Ha; unfold num_roots; lia)) as n1. destruct (at_rt n A c pc rs L F H E alpha Ha) as [_ Q]. rewrite Q. apply (RootAcc.expr_any n rs n1 r_root alpha Ha). }
  unfold simple_imaginary_grading. rewrite Ee. cbn [bind].
  assert (Lr : length (root_at rs alpha) = n) by apply (MoBase.b_len n A c pc rs BU alpha Ha).
  pose proof (TgMake.mod2_run dim n (root_at rs alpha) Lr ND) as G0. destruct (bv_mod2 dim (root_at rs alpha)) as [x|e] eqn:Ex; cbn [gives] in G0; [|contradiction]. destruct G0 as ((Sx & Sz) & (Mx & Cx)). cbn [bind].
  rewrite (F2Kernel.positions_within dim n (data x) ND Mx).
  unfold positions_of. rewrite (each_filter _ (coord (data x)) (fun i => scalar r (root2 G i) (data (te_t a)))).
  - rewrite fold_sum2. rewrite (F2Ops.dot_ok dim n x _ ND Mx). cbn [data]. unfold scalar at 1. f_equal. rewrite <- negb_xorb_l. f_equal. rewrite <- F2Basics.sum2_xor.
    assert (Q : forall m, m <= n -> sum2 m (fun i => xorb (coord (data x) i && coord (N.lxor g (N.ones (N.of_nat dim))) i) (coord (data x) i && scalar r (root2 G i) (data (te_t a)))) =
      Z.odd (zsum m (fun i => co (root_at rs alpha) i * Z.b2z (negb (noncompact r G g i a)))%Z)); [|apply Q; lia].
    induction m as [|m IH]; intros Lm; [reflexivity|]. cbn [sum2]. rewrite IH by lia.
    replace (zsum (S m) (fun i => co (root_at rs alpha) i * Z.b2z (negb (noncompact r G g i a)))%Z) with (zsum (m + 1) (fun i => co (root_at rs alpha) i * Z.b2z (negb (noncompact r G g i a)))%Z) by (f_equal; lia).
    rewrite MatLin.zsum_split, (MatLin.zsum_one 1 0) by lia. rewrite Nat.add_0_r, Z.odd_add. f_equal. rewrite Z.odd_mul, <- Cx by lia.
    unfold noncompact, coord at 2. rewrite N.lxor_spec, N.ones_spec_low by lia. fold (coord g m). destruct (coord (data x) m), (coord g m), (scalar r (root2 G m) (data (te_t a))); reflexivity.
  - intros i ev Hi. apply in_seq in Hi. unfold dual_m_alpha. destruct (TgProofs.root_at dim n A r G L T i ltac:(lia)) as (y & Ey & By & Dy). rewrite Ey. cbn [bind]. rewrite (F2Ops.dot_ok dim r y (te_t a) (to_dim _ _ _ _ _ T) (proj1 By)), Dy. reflexivity.
Qed.
Print Assumptions C174_formula.
(** at a simple root this is the grading of the simple root *)
Theorem C174_simple dim n A r G g c pc rs : tits_of dim n A r G -> n <= dim -> built n A c pc rs ->
  forall a i, i < n -> simple_imaginary_grading dim G g rs (te_t a) (num_pos rs + i) = simple_grading dim G g a i.
Proof.
  intros T ND BU a i Hi. pose proof BU as (L & F & H & E). destruct (simple_lt n A c pc rs L F H E i Hi) as (Hp & Es & _).
  rewrite (C174_formula dim n A r G g c pc rs T ND BU a (num_pos rs + i) ltac:(unfold num_roots in *; lia)), (C161_grading dim n A r G T ND g a i Hi), Es. f_equal.
  rewrite (MatLin.zsum_one n i _ Hi).
  - rewrite RootMath.co_basis by exact Hi. rewrite Nat.eqb_refl, Z.mul_1_l. destruct (noncompact r G g i a); reflexivity.
  - intros j Hj Ne. rewrite RootMath.co_basis by exact Hi. destruct (j =? i) eqn:Y; [apply Nat.eqb_eq in Y; lia|]. reflexivity.
Qed.
Print Assumptions C174_simple.
(** GL(4): the highest root, with the base grading 2 where two of its three simple roots are compact *)
Example C174_ex : tits_of 32 3 g4_A 4 G4 /\ built 3 g4_A a3 false RootProps.A /\ 11 < num_roots RootProps.A /\ root_at RootProps.A 11 = [1; 1; 1]%Z /\
  simple_imaginary_grading 32 G4 2 RootProps.A (mk_bv 0 4) 11 = Ok true /\ simple_imaginary_grading 32 G4 2 RootProps.A (mk_bv 1 4) 11 = Ok false /\
  simple_imaginary_grading 32 G4 7 RootProps.A (mk_bv 0 4) 11 = Ok true /\ simple_imaginary_grading 32 G4 6 RootProps.A (mk_bv 0 4) 11 = Ok false.
Proof.
  split; [apply G4_tits|]. split; [exact a3_g4|]. split; [vm_compute; lia|]. vm_compute. repeat split; reflexivity.
Qed.
