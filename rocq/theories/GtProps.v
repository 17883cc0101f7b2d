(** Properties C162-C165: global Tits groups. *)

From Coq Require Import List Arith ZArith QArith Qfield Bool Lia Lqa Ascii Permutation.
From Verif Require Import RootModel.
From Verif Require Import WeylModel WeylSpec WeylTable WeylExchange WeylGroup WeylOps WeylMake WeylExt WeylProps TwistSpec TwistModel TwistWords TwistProofs TwistProps.
From Verif Require RootProps.
From Verif Require Import BitsModel VecModel RunModel RunProofs MatModel MatSpec RatVecModel RatVecSpec RatVecProofs RatVecOps DatModel DatSpec DatProps DfSpec DfProps TgProps
  YvModel YvSpec YvProofs YvOps YvAct GtModel GtSpec GtMath GtTheta GtRuns GtGroup GtMake.
Import ListNotations.
Open Scope nat_scope.

(** * C162: construction, actions on torus elements *)
(** the group of a root datum: its simple coroots and roots, and the transpose of the involution *)
Theorem C162_make r n A B p W f dl g : based r n A B p -> weyl_of n (pairings r A B) W -> twist_of n (pairings r A B) f -> is_mx dl r r g ->
  permutes_simple r n A B g (fun s => nth s f 0) -> involutive r g ->
  gives (make_global p W f dl) (fun G => gt_W G = W /\ global_of r n B A (pairings r A B) f (fun i j => g j i) G) (fun _ => False).
Proof. apply make_global_run. Qed.

Section Props.
Variables (r n : nat) (A B C : nat -> nat -> Z) (f : list nat) (g : nat -> nat -> Z) (G : global).
Hypothesis HG : global_of r n A B C f g G.
Notation W := (gt_W G).
Notation "u ~ v" := (same n (coxeter C) u v) (at level 70).
Notation fs s := (nth s f 0%nat).
Notation TI := (twisted_involution n C f).
Notation th := (thetaQ r A B g).
Notation strong := (strong r n A B C f g).
Notation overflow := (fun e => e = Overflow).
Notation elt := (elt_of r n G).
Ltac start := destruct HG as ((comps & D & RM & MK) & HF & HA & HB & HD & K); change (n <= rank_max) in RM;
  pose proof (Cart n C comps W D RM MK) as CA; pose proof (ELLx n C comps W D RM MK) as ELL; pose proof K as (TW & PR & GG & GA & GB).
Ltac intoX E := match goal with D : describes _ _ ?comps, RM : n <= rank_max, MK : make_weyl _ ?comps = Ok _ |- _ => apply (element_X n C comps W D RM MK) in E; [|assumption] end.

(** the matrix of a twisted involution: minus the action [th] on vectors *)
Theorem C162_involution u w : over n u -> element W u = Ok w ->
  gives (gt_involution G w) (fun M => exists h, is_mx M r r h /\ forall q i, i < r -> (actQ r h q i == - th u q i)%Q) overflow.
Proof. intros O E. start. intoX E. apply (involution_run r n A B C f g G comps D RM MK HA HB HD K w u E). Qed.
(** action of a Weyl group element on rational vectors *)
Theorem C162_action u w v q : over n u -> element W u = Ok w -> is_rv v r q ->
  gives (weyl_act_rat W (gt_prd G) w v) (fun v' => den v' = den v /\ is_rv v' r (wordQ r A B u q)) overflow.
Proof. intros O E R. start. intoX E. apply (act_vec_run r n A B C f g G comps D RM MK HA HB K v q w u E R). Qed.
(** it depends only on the Weyl group element *)
Theorem C162_same u v q i : u ~ v -> i < r -> (wordQ r A B u q i == wordQ r A B v q i)%Q.
Proof. intros E Hi. start. apply (act_same r n A B C CA PR u v E q i Hi). Qed.
(** images of torus elements: by the distinguished involution, by its opposite times the longest element, by a twisted involution *)
Theorem C162_twisted x q : is_exp x r q -> gives (gt_twisted G x) (fun y => is_torus y r (actQ r g q) /\ den y = den x) overflow.
Proof. intros H. start. apply (twisted_run r g G HD x q H). Qed.
Theorem C162_dual_twisted w0 u0 x q : longest W = Ok w0 -> over n u0 -> element W u0 = Ok w0 -> is_exp x r q ->
  gives (gt_dual_twisted G x) (fun y => is_torus y r (fun i => - actQ r g (wordQ r A B u0 q) i)%Q /\ den y = den x) overflow.
Proof. intros L O E H. start. intoX E. apply (dual_twisted_run r n A B C f g G comps D RM MK HA HB HD K x q w0 u0 L E H). Qed.
Theorem C162_theta a q u : elt q u a -> gives (theta_torus G a) (fun y => is_torus y r (th u q) /\ den y = den (fst a)) overflow.
Proof.
  intros ((p & R & HP) & O & E). start. intoX E. eapply gives_mono; [apply (theta_rv r n A B C f g G comps D RM MK HA HB HD K a p u E R)|].
  intros y (Ty & Dy). split; [|exact Dy]. eapply torus_ext; [exact Ty|]. now apply (th_diff r A B g u).
Qed.
(** the square of an element, up to a fixed central factor *)
Theorem C162_square a q u M : elt q u a -> sized_by M (fst a) -> (M < 2 ^ 60)%Z ->
  gives (square_shifted G a) (fun y => is_exp y r (squareQ r A B g q u) /\ sized_by (2 * M) y /\ (den y | den (fst a))%Z) overflow.
Proof.
  intros ((p & R & HP) & O & E) SM HM. start. intoX E. eapply gives_mono; [apply (square_rv r n A B C f g G comps D RM MK HA HB HD K a p u M E R SM HM)|].
  intros y (Hy & H2). split; [|exact H2]. now apply (exp_square r A B g p q u y).
Qed.

(** * C163: validity *)
Theorem C163_valid a q u M b0 : elt q u a -> sized_by M (fst a) -> (M < 2 ^ 60)%Z -> (forall s, (s < n)%nat -> zsum r (fun i => Z.abs (B i s)) * (2 * M) < 2 ^ 31)%Z ->
  (b0 = false -> TI u) -> gives (gt_valid G a b0) (fun b => b = true <-> strong q u) overflow.
Proof. intros (X0 & O & E) SM HM HS HT. start. intoX E. apply (valid_run r n A B C f g G comps D RM MK HF HA HB HD K a q u M b0 E X0 SM HM HS HT). Qed.
(** validity does not depend on the choice of [q] and [u] *)
Theorem C163_same p q u v : is_diff r p q -> u ~ v -> strong p u -> strong q v.
Proof. intros H E V. start. apply (valid_change r n A B C CA PR f g TW p q u v H E V). Qed.
(** a twisted involution gives an involution of the torus *)
Theorem C163_involution u q i : TI u -> i < r -> (th u (th u q) i == q i)%Q.
Proof. intros T Hi. start. apply (th_th r n A B C CA PR f g GG GA GB u q T i Hi). Qed.
(** the square of a valid element is fixed by its involution *)
Theorem C163_square_fixed u q i : TI u -> i < r -> (th u (squareQ r A B g q u) i == squareQ r A B g q u i)%Q.
Proof.
  intros T Hi. start. unfold squareQ. rewrite (th_add r A B g u q (th u q) i Hi), (th_th r n A B C CA PR f g GG GA GB u q T i Hi). ring.
Qed.
Lemma twisted_square q u : over n u -> veq r (squareQ r A B g (actQ r g q) (relabel f u)) (actQ r g (squareQ r A B g q u)).
Proof.
  intros O. start. intros i Hi. unfold squareQ. rewrite (actQ_add r g q (th u q) i Hi). apply Qplus_comp; [reflexivity|].
  unfold thetaQ. rewrite <- (g_act r n A B f g GA GB u (actQ r g q) O i Hi). reflexivity.
Qed.
Lemma central_g q : centralQ r n B q -> centralQ r n B (actQ r g q).
Proof.
  intros P s Hs. start. destruct (proj1 (proj2 TW) s Hs) as [Fs Fss]. rewrite <- Fss. apply (even_eq (rootQ r B (fs s) q) 0); [|reflexivity|now apply P].
  symmetry. apply (ev_g r n B f g GB (fs s) q Fs).
Qed.
(** the twist of an element is valid when the element is *)
Theorem C163_twisted a q u : elt q u a -> gives (gt_twisted_elt G a) (elt (actQ r g q) (relabel f u)) overflow.
Proof.
  intros (X0 & O & E). unfold gt_twisted_elt. eapply gives_bind; [apply (C162_twisted (fst a) q X0)|]. intros t (Tt & _). start.
  rewrite HF. assert (WO : weyl_of n C W) by (exists comps; auto). rewrite (C78_twisted n C W WO f TW (snd a) u O E).
  assert (OR : over n (relabel f u)) by now apply (d_over n C f TW). destruct (X_el n C comps W D RM MK (relabel f u) OR) as (x & Rx). rewrite (element_is n C comps W D RM MK _ _ Rx). cbn [bind gives].
  split; [|split; [exact OR|apply (element_is n C comps W D RM MK _ _ Rx)]]. destruct Tt as (p & R & HP). exists p. split; [exact R|]. intros i Hi. now apply HP.
Qed.
Theorem C163_twisted_valid q u : strong q u -> strong (actQ r g q) (relabel f u).
Proof.
  intros (T & P). pose proof T as [O E]. split.
  - start. split; [now apply (d_over n C f TW)|]. pose proof (d_same n C f TW _ _ E) as E'. rewrite (d_app f u (relabel f u)) in E'. exact E'.
  - start. apply (central_diff r n B (actQ r g (squareQ r A B g q u))); [|now apply central_g]. apply veq_diff, veq_sym. now apply twisted_square.
Qed.
Lemma longest_fixed u0 k0 : over n u0 -> shortest n (coxeter C) u0 k0 -> (forall u k, over n u -> shortest n (coxeter C) u k -> k <= k0 /\ (k = k0 -> u ~ u0)) -> relabel f u0 ~ u0.
Proof.
  intros O S0 H. start. assert (OR : over n (relabel f u0)) by now apply (d_over n C f TW). pose proof (ELL _ OR) as S1.
  apply (proj2 (H _ _ OR S1)). rewrite (d_ell n C f TW _ ELL u0 O). apply (short_once n C _ _ _ (ELL _ O) S0).
Qed.
Lemma central_opp q : centralQ r n B q -> centralQ r n B (fun i => - q i)%Q.
Proof.
  intros P s Hs. pose proof (even_opp _ _ (P s Hs)) as E. eapply even_eq; [| |exact E]; [|reflexivity].
  unfold rootQ. pose proof (pair_scale r (fun j => B j s) q (-1)) as E1. symmetry.
  transitivity (pairQ r (fun j => B j s) (fun i => -1 * q i)%Q); [apply pair_ext; intros i _; ring|]. rewrite E1. ring.
Qed.
Lemma central_act u q : over n u -> centralQ r n B q -> centralQ r n B (wordQ r A B u q).
Proof.
  intros O P. start. induction u as [|s u IH]; [exact P|]. rewrite act_cons. apply (central_refl r n A B C PR s); [apply O; now left|]. apply IH. intros t Ht. apply O. now right.
Qed.
(** the image under the opposite of the twist by the longest element *)
Theorem C163_dual_twisted a q u : elt q u a ->
  exists w0 u0 h, longest W = Ok w0 /\ over n u0 /\ element W u0 = Ok w0 /\ (forall v, over n v -> relabel h v ~ u0 ++ relabel f v ++ u0) /\
    gives (gt_dual_twisted_elt G a) (elt (fun i => - actQ r g (wordQ r A B u0 q) i)%Q (relabel h u)) overflow /\
    (strong q u -> strong (fun i => - actQ r g (wordQ r A B u0 q) i)%Q (relabel h u)).
Proof.
  intros (X0 & O & E). start. assert (WO : weyl_of n C W) by (exists comps; auto). destruct (C73_longest n C W WO) as (w0 & u0 & k0 & L0 & O0 & E0 & S0 & _ & TOP).
  destruct (C78_dual_twist n C W WO f TW w0 u0 L0 O0 E0) as (h & _ & TH & _ & HR & HE & _).
  pose proof (C73_involution n C W WO w0 u0 L0 O0 E0) as I0. pose proof (longest_fixed u0 k0 O0 S0 TOP) as F0.
  assert (OH : over n (relabel h u)) by now apply (d_over n C h TH). assert (OF : over n (relabel f u)) by now apply (d_over n C f TW).
  exists w0, u0, h. do 4 (split; [assumption|]). split.
  - unfold gt_dual_twisted_elt. eapply gives_bind; [apply (C162_dual_twisted w0 u0 (fst a) q L0 O0 E0 X0)|]. intros t (Tt & _).
    rewrite HF, (HE u (snd a) O E). destruct (X_el n C comps W D RM MK (relabel h u) OH) as (x & Rx). rewrite (element_is n C comps W D RM MK _ _ Rx). cbn [bind gives].
    split; [|split; [exact OH|apply (element_is n C comps W D RM MK _ _ Rx)]]. destruct Tt as (p & R & HP). exists p. split; [exact R|]. intros i Hi. now apply HP.
  - intros (T & P). pose proof T as [_ ET]. split.
    + split; [exact OH|]. pose proof (d_same n C f TW _ _ (HR u O)) as E1. rewrite !(d_app f) in E1. rewrite (d_d n C f TW u O) in E1.
      pose proof (d_same n C f TW _ _ ET) as E2. rewrite (d_app f), (d_d n C f TW u O) in E2. cbn [relabel map] in E2.
      eapply same_trans; [apply same_app; [apply (HR u O)|exact E1]|].
      eapply same_trans; [apply same_app_l; apply same_app; [exact F0|]; apply same_app_l; exact F0|].
      rewrite <- !app_assoc. eapply same_trans; [apply same_app_l, same_app_l; rewrite app_assoc; apply same_app_r; exact I0|]. cbn [app].
      eapply same_trans; [apply same_app_l; rewrite app_assoc; apply same_app_r; exact E2|]. exact I0.
    + apply (central_diff r n B (fun i => - actQ r g (wordQ r A B u0 (squareQ r A B g q u)) i)%Q); [|apply central_opp, central_g, central_act; auto].
      apply veq_diff, veq_sym. intros i Hi. unfold squareQ at 1.
      assert (E3 : veq r (th (relabel h u) (fun i => - actQ r g (wordQ r A B u0 q) i)%Q) (fun i => - wordQ r A B u0 (wordQ r A B (relabel f u) q) i)%Q).
      { assert (NEG : veq r (actQ r g (fun i => - actQ r g (wordQ r A B u0 q) i)%Q) (fun i => -1 * wordQ r A B u0 q i)%Q).
        { intros j Hj. transitivity (actQ r g (fun i => -1 * actQ r g (wordQ r A B u0 q) i)%Q j); [apply (actQ_ext r g); [intros k _; ring|exact Hj]|].
          rewrite (actQ_scale r g _ (-1) j Hj), (g_g r g GG (wordQ r A B u0 q) j Hj). reflexivity. }
        intros j Hj. unfold thetaQ. rewrite (act_ext r A B (relabel h u) _ _ NEG j Hj), (act_scale r A B (relabel h u) (wordQ r A B u0 q) (-1) j Hj).
        rewrite (act_same r n A B C CA PR _ _ (HR u O) (wordQ r A B u0 q) j Hj). rewrite !act_app.
        assert (E4 : veq r (wordQ r A B u0 (wordQ r A B u0 q)) q) by (rewrite <- act_app; apply (act_same r n A B C CA PR _ _ I0 q)).
        rewrite (act_ext r A B u0 _ _ (act_ext r A B (relabel f u) _ _ E4) j Hj). ring. }
      rewrite (E3 i Hi).
      assert (E5 : veq r (actQ r g (wordQ r A B u0 (squareQ r A B g q u))) (fun i => actQ r g (wordQ r A B u0 q) i + wordQ r A B u0 (wordQ r A B (relabel f u) q) i)%Q).
      { intros j Hj. unfold squareQ. rewrite (actQ_ext r g _ _ (act_add r A B u0 q (th u q)) j Hj), (actQ_add r g _ _ j Hj). apply Qplus_comp; [reflexivity|].
        unfold thetaQ. rewrite (g_act r n A B f g GA GB u0 _ O0 j Hj), (act_same r n A B C CA PR _ _ F0 _ j Hj).
        apply (act_ext r A B u0); [|exact Hj]. intros k Hk. rewrite (g_act r n A B f g GA GB u _ O k Hk). apply (act_ext r A B (relabel f u)); [|exact Hk]. apply (g_g r g GG q). }
      rewrite (E5 i Hi). ring.
Qed.

(** * C164: cross actions *)
Lemma commutes_conj u s : s < n -> commutes n C f u s -> s :: u ++ [fs s] ~ u.
Proof.
  intros Hs H. start. change (s :: u ++ [fs s]) with ((s :: u) ++ [fs s]). eapply same_trans; [apply same_app_r; exact H|]. rewrite <- app_assoc. apply same_undo. apply (proj1 (proj2 TW) s Hs).
Qed.
Lemma commutes_same u v s : u ~ v -> commutes n C f u s -> commutes n C f v s.
Proof.
  intros E H. unfold commutes in *. eapply same_trans; [apply same_cons, same_sym; exact E|]. eapply same_trans; [exact H|]. now apply same_app_r.
Qed.
Lemma imaginary_same u v s : u ~ v -> imaginary n C f u s -> imaginary n C f v s.
Proof. intros E (H & k & S1 & S2). split; [now apply (commutes_same u)|]. exists k. split; [now apply (short_same n C u)|apply (short_same n C (s :: u)); auto; now apply same_cons]. Qed.
Lemma real_same u v s : u ~ v -> real n C f u s -> real n C f v s.
Proof. intros E (H & k & S1 & S2). split; [now apply (commutes_same u)|]. exists k. split; [now apply (short_same n C u)|apply (short_same n C (s :: u)); auto; now apply same_cons]. Qed.
(** a generator is of one of three types *)
Theorem C164_types u s : s < n -> over n u -> commutes n C f u s -> (imaginary n C f u s /\ ~ real n C f u s) \/ (real n C f u s /\ ~ imaginary n C f u s).
Proof.
  intros Hs O H. start. destruct (types n C f G comps D RM MK s u Hs O H) as [TR TI0]. pose proof (not_both n C f RM s u) as NB.
  destruct (lt_dec (ellx n comps W (s :: u)) (ellx n comps W u)) as [L|L]; [right|left]; split; auto; intros H2; eapply NB; eauto.
Qed.
Lemma crossed_valid s q u q' : s < n -> crossed r n A B C f s q u q' -> strong q u -> strong q' (s :: u ++ [fs s]).
Proof.
  intros Hs (H1 & H2 & H3) V. pose proof V as ((O & _) & _). start. destruct (comm_dec n C comps W D RM MK f TW s u Hs O) as [CM|CM].
  - apply (comm_is r n A B C f g K s u Hs O) in CM. pose proof (same_sym _ _ _ _ (commutes_conj u s Hs CM)) as EC. destruct (C164_types u s Hs O CM) as [(IM & _)|(RE & _)].
    + apply (valid_change r n A B C CA PR f g TW (im_cross r A B s q) q' u _ (diff_sym _ _ _ (H2 IM)) EC). now apply (valid_imaginary r n A B C CA PR _ ELL f g TW GA GB s q u Hs IM).
    + now apply (valid_change r n A B C CA PR f g TW q q' u _ (diff_sym _ _ _ (H3 RE)) EC).
  - rewrite (comm_is r n A B C f g K s u Hs O) in CM. apply (valid_change r n A B C CA PR f g TW (reflQ r A B s q) q' (s :: u ++ [fs s]) _ (diff_sym _ _ _ (H1 CM)) (same_refl _ _ _)).
    now apply (valid_complex r n A B C CA PR f g TW GA GB s q u Hs).
Qed.
Lemma cross_step a q u s M : elt q u a -> strong q u -> s < n -> sized_by M (fst a) -> (M < 2 ^ 60)%Z ->
  gives (gt_cross G s a) (fun '(b, c) => half_change n C c (s :: u ++ [fs s]) u /\ exists q', elt q' (s :: u ++ [fs s]) b /\ crossed r n A B C f s q u q' /\ strong q' (s :: u ++ [fs s])) overflow.
Proof.
  intros ((p & R & HP) & O & E) V Hs SM HM. start. intoX E.
  eapply gives_mono; [apply (cross_run r n A B C f g G comps D RM MK HF HA HB K a p q u s M E (proj1 V) Hs R HP SM HM)|].
  - intros IM. right. apply (imaginary_value r n A B C CA PR _ ELL f g TW GB s q u Hs IM V).
  - intros [b c] (Xb & HC & q' & EX & CR). split; [exact HC|]. exists q'. split; [split; [exact EX|]; split; [apply Xb|apply (element_is n C comps W D RM MK _ _ Xb)]|]. split; [exact CR|]. now apply (crossed_valid s q).
Qed.
Theorem C164_cross a q u s M : elt q u a -> strong q u -> s < n -> sized_by M (fst a) -> (M < 2 ^ 60)%Z ->
  gives (gt_cross G s a) (fun '(b, c) => half_change n C c (s :: u ++ [fs s]) u /\ exists q', elt q' (s :: u ++ [fs s]) b /\ crossed r n A B C f s q u q' /\ strong q' (s :: u ++ [fs s])) overflow.
Proof. apply cross_step. Qed.
(** the cross action of a generator done twice is the identity *)
Theorem C164_twice s q u q1 q2 : s < n -> over n u -> crossed r n A B C f s q u q1 -> crossed r n A B C f s q1 (s :: u ++ [fs s]) q2 ->
  is_diff r q2 q /\ s :: (s :: u ++ [fs s]) ++ [fs s] ~ u.
Proof.
  intros Hs O (H1 & H2 & H3) (K1 & K2 & K3). start. pose proof (f_in n C f TW s Hs) as Hf.
  assert (EW : s :: (s :: u ++ [fs s]) ++ [fs s] ~ u).
  { change (s :: (s :: u ++ [fs s]) ++ [fs s]) with ([s; s] ++ (u ++ [fs s]) ++ [fs s]). eapply same_trans; [apply same_app_r, same_square; exact Hs|]. cbn [app]. rewrite <- app_assoc. now apply same_undo. }
  split; [|exact EW]. destruct (comm_dec n C comps W D RM MK f TW s u Hs O) as [CM|CM].
  - apply (comm_is r n A B C f g K s u Hs O) in CM. pose proof (same_sym _ _ _ _ (commutes_conj u s Hs CM)) as EC. destruct (C164_types u s Hs O CM) as [(IM & _)|(RE & _)].
    + apply (diff_trans r _ _ _ (K2 (imaginary_same _ _ s EC IM))). apply (diff_trans r _ (im_cross r A B s (im_cross r A B s q))).
      * apply diff_add; [|apply diff_refl]. apply diff_refl_s. exact (H2 IM).
      * apply veq_diff. now apply (im_twice r n A B C CA PR).
    + apply (diff_trans r _ _ _ (K3 (real_same _ _ s EC RE))). exact (H3 RE).
  - rewrite (comm_is r n A B C f g K s u Hs O) in CM.
    assert (NC : ~ commutes n C f (s :: u ++ [fs s]) s).
    { intros H. apply CM. unfold commutes in H. apply (same_cancel_l n (coxeter C) (s :: u) (u ++ [fs s]) [s]); [intros t [<-|[]]; exact Hs|].
      apply (same_cancel_r n (coxeter C) _ _ [fs s]); [intros t [<-|[]]; exact Hf|]. change (([s] ++ s :: u) ++ [fs s]) with (s :: s :: u ++ [fs s]). exact H. }
    apply (diff_trans r _ _ _ (K1 NC)). apply (diff_trans r _ (reflQ r A B s (reflQ r A B s q))); [apply diff_refl_s; exact (H1 CM)|]. apply veq_diff. now apply (refl_square r n A B C CA PR).
Qed.
(** words acting on the left, and on the right by their inverses; [M] bounds all elements on the way *)
Lemma half_add z1 z2 u v w : over n u -> over n v -> over n w -> half_change n C z1 v u -> half_change n C z2 w v -> half_change n C (z1 + z2) w u.
Proof. intros O1 O2 O3 H1 H2 a b Ka Kb. start. specialize (H1 _ _ (ELL v O2) Kb). specialize (H2 _ _ Ka (ELL v O2)). lia. Qed.
Theorem C164_left ww a q u M : elt q u a -> strong q u -> over n ww -> (M < 2 ^ 60)%Z ->
  (forall v1 v2 b c, ww = v1 ++ v2 -> gt_cross_left G v2 a = Ok (b, c) -> sized_by M (fst b)) ->
  gives (gt_cross_left G ww a) (fun '(b, c) => half_change n C c (ww ++ u ++ rev (relabel f ww)) u /\
    exists q', elt q' (ww ++ u ++ rev (relabel f ww)) b /\ crossed_word r n A B C f ww q u q' /\ strong q' (ww ++ u ++ rev (relabel f ww))) overflow.
Proof.
  intros EA V OW HM. unfold gt_cross_left. induction ww as [|s v IH]; intros HS.
  - cbn [rev app relabel map]. rewrite app_nil_r. change (each_comp [] (add_cross G) (a, 0%Z)) with (Ok (a, 0%Z)). cbn [gives]. split.
    + intros k k' K1 K2. rewrite (short_once n C _ _ _ K1 K2). lia.
    + exists q. split; [exact EA|]. split; [apply diff_refl|exact V].
  - cbn [rev]. rewrite each_comp_app. assert (Hs : s < n) by (apply OW; now left). assert (OV : over n v) by (intros t Ht; apply OW; now right).
    specialize (IH OV ltac:(intros v1 v2 b c EV; apply (HS (s :: v1) v2); now rewrite EV)).
    destruct (each_comp (rev v) (add_cross G) (a, 0%Z)) as [[b c]|e] eqn:EC; [|exact IH]. cbn [bind gives] in *. destruct IH as (HC & q1 & EB & CW & V1).
    rewrite each_comp_cons. unfold add_cross at 1.
    pose proof (cross_step b q1 _ s M EB V1 Hs (HS [s] v b c eq_refl EC) HM) as GC. destruct (gt_cross G s b) as [[b2 c2]|e]; cbn [bind gives] in GC |- *; [|exact GC].
    change (each_comp [] (add_cross G) (b2, (c + c2)%Z)) with (Ok (b2, (c + c2)%Z)). cbn [gives]. destruct GC as (HC2 & q2 & EB2 & CR & V2).
    assert (EE : (s :: v) ++ u ++ rev (relabel f (s :: v)) = s :: (v ++ u ++ rev (relabel f v)) ++ [fs s]) by (cbn [relabel map rev app]; rewrite <- !app_assoc; reflexivity).
    cbn [rev] in *. rewrite EE. split; [|exists q2; split; [exact EB2|]; split; [|exact V2]].
    + apply (half_add c c2 u (v ++ u ++ rev (relabel f v))); auto; [apply EA|apply EB|apply EB2].
    + cbn [crossed_word]. exists q1. split; [exact CW|exact CR].
Qed.
Theorem C164_right ww a : gt_cross_right G a ww = gt_cross_left G (rev ww) a.
Proof. unfold gt_cross_right, gt_cross_left. now rewrite rev_involutive. Qed.
(** descents *)
Theorem C164_descents a q u : elt q u a -> exists l, gt_descents G a = Ok l /\ length l = n /\
  forall s k k', s < n -> shortest n (coxeter C) u k -> shortest n (coxeter C) (s :: u) k' -> nth s l false = (k' <? k).
Proof.
  intros (_ & O & E). start. assert (WO : weyl_of n C W) by (exists comps; auto).
  assert (H : forall s, s < n -> has_descent W s (snd a) = Ok (ellx n comps W (s :: u) <? ellx n comps W u)).
  { intros s Hs. apply (C72_has_descent n C W WO (snd a) u s); auto. apply ELL. now apply over_cons. }
  unfold gt_descents. assert (EM : mcols (p_roots (gt_prd G)) = n) by apply HA. rewrite EM.
  pose proof (make_row_ok false n (fun s => has_descent W s (snd a)) (fun s b => b = (ellx n comps W (s :: u) <? ellx n comps W u))) as GR.
  assert (G0 : forall i, i < n -> gives (has_descent W i (snd a)) (fun b => b = (ellx n comps W (i :: u) <? ellx n comps W u)) sure) by (intros i Hi; rewrite (H i Hi); reflexivity).
  specialize (GR G0). apply gives_sure in GR. destruct GR as (l & EL & LL & HL). exists l. split; [exact EL|]. split; [exact LL|].
  intros s k k' Hs K1 K2. rewrite (short_once n C _ _ _ K1 (ELL u O)), (short_once n C _ _ _ K2 (ELL (s :: u) (proj2 (over_cons n s u) (conj Hs O)))). now apply HL.
Qed.

(** * C165: gradings and Cayley transforms *)
(** the value of an imaginary simple root at a valid element is an integer; the root is compact when it is odd *)
Theorem C165_compact a q u s : elt q u a -> strong q u -> s < n -> imaginary n C f u s ->
  exists z, (rootQ r B s q == inject_Z z)%Q /\ gives (gt_compact G s a) (fun b => b = Z.odd z) overflow.
Proof.
  intros (X0 & O & E) V Hs IM. start. destruct (imaginary_value r n A B C CA PR _ ELL f g TW GB s q u Hs IM V) as (z & Ez). exists z. split; [exact Ez|].
  unfold gt_compact, p_coroot. eapply gives_bind; [apply (MatOps.column_ok 0%Z _ r n B s HB Hs)|]. intros c Vc. apply (negative_rv (fst a) r q c (fun j => B j s) z X0 Vc Ez).
Qed.
Theorem C165_Cayley a q u s : elt q u a -> strong q u -> s < n -> imaginary n C f u s -> even_apart (rootQ r B s q) 0 ->
  exists b, gt_Cayley G s a = Ok b /\ elt q (s :: u) b /\ fst b = fst a /\ strong q (s :: u) /\ real n C f (s :: u) s.
Proof.
  intros (X0 & O & E) V Hs IM EV. start. intoX E. pose proof (lm_X n C comps W D RM MK (snd a) u s E Hs) as GL. apply gives_sure in GL. destruct GL as ([w c] & E1 & Xw & _).
  exists (fst a, w). unfold gt_Cayley. rewrite E1. cbn [bind fst snd]. split; [reflexivity|]. split; [split; [exact X0|]; split; [apply Xw|apply (element_is n C comps W D RM MK _ _ Xw)]|]. split; [reflexivity|].
  split; [|now apply (im_to_re n C f s u Hs O)]. apply (valid_Cayley r n A B C CA PR _ ELL f g TW GB s q u Hs); auto. apply IM.
Qed.
Theorem C165_inverse a q u s M : elt q u a -> strong q u -> s < n -> real n C f u s -> sized_by M (fst a) -> (M < 2 ^ 60)%Z -> (zsum r (fun i => Z.abs (B i s)) * M < 2 ^ 31)%Z ->
  gives (gt_inverse_Cayley G s a) (fun b => exists q' x, elt q' (s :: u) b /\ is_diff r q' (fun i => q i + (x i - th u x i))%Q /\
    strong q' u /\ strong q' (s :: u) /\ imaginary n C f (s :: u) s /\ even_apart (rootQ r B s q') 0) overflow.
Proof.
  intros ((p & R & HP) & O & E) V Hs RE SM HM HB1. start. intoX E. unfold gt_inverse_Cayley.
  eapply gives_bind; [apply (inverse_run G r n A B s (fst a) p M HA HB Hs R SM HM HB1)|]. intros t Ht.
  pose proof (lm_X n C comps W D RM MK (snd a) u s E Hs) as GL. apply gives_sure in GL. destruct GL as ([w c] & E1 & Xw & _). rewrite E1. cbn [bind gives].
  assert (FIN : forall q', is_exp t r q' -> strong q' u -> even_apart (rootQ r B s q') 0 -> elt q' (s :: u) (t, w) /\ strong q' (s :: u) /\ imaginary n C f (s :: u) s).
  { intros q' Hq V' EV. split; [split; [exact Hq|]; split; [apply Xw|apply (element_is n C comps W D RM MK _ _ Xw)]|]. split; [|now apply (re_to_im n C f s u Hs O)].
    apply (valid_Cayley r n A B C CA PR _ ELL f g TW GB s q' u Hs); auto. apply RE. }
  destruct Ht as [(EV & ->)|(_ & (p' & R' & H'))].
  - assert (EV' : even_apart (rootQ r B s q) 0) by (eapply even_trans; [apply even_sym; now apply (pair_even r (fun j => B j s) p q HP)|exact EV]).
    destruct (FIN q ltac:(now exists p) V EV') as (F1 & F2 & F3). exists q, (fun _ => 0)%Q. split; [exact F1|]. split; [|auto]. apply veq_diff. intros i Hi.
    assert (E0 : (th u (fun _ => 0)%Q i == 0)%Q). { pose proof (th_scale r A B g u (fun _ => 0)%Q 0 i Hi) as ES. rewrite <- (th_ext r A B g u _ _ (fun j (_ : j < r) => Qmult_0_l 0%Q) i Hi). rewrite ES. ring. }
    rewrite E0. ring.
  - destruct (clear_class r n A B C CA PR _ ELL f g TW GA GB s p u Hs O RE) as (x & HX).
    assert (VP : strong p u) by (apply (valid_change r n A B C CA PR f g TW q p u u (diff_sym _ _ _ HP) (same_refl _ _ _) V)).
    pose proof (clear_valid r n A B C CA PR _ ELL f g TW GA GB s p u Hs RE VP) as VC.
    assert (EC : even_apart (rootQ r B s (clear_root r A B s p)) 0) by (apply even_refl; apply (clear_ev r n A B C CA PR s p Hs)).
    destruct (FIN (clear_root r A B s p) ltac:(exists p'; split; [exact R'|]; intros i Hi; now apply H') VC EC) as (F1 & F2 & F3).
    exists (clear_root r A B s p), x. split; [exact F1|]. split; [|auto]. apply (diff_trans r _ _ _ (veq_diff r _ _ HX)). apply diff_add; [exact HP|apply diff_refl].
Qed.
(** the two transforms undo each other *)
Theorem C165_back a q u s M : elt q u a -> strong q u -> s < n -> imaginary n C f u s -> even_apart (rootQ r B s q) 0 ->
  sized_by M (fst a) -> (M < 2 ^ 60)%Z -> (zsum r (fun i => Z.abs (B i s)) * M < 2 ^ 31)%Z ->
  gives (run b <- gt_Cayley G s a; gt_inverse_Cayley G s b) (fun b => b = a) overflow.
Proof.
  intros EA V Hs IM EV SM HM HB1. destruct (C165_Cayley a q u s EA V Hs IM EV) as (b & -> & (_ & Ob & Eb) & EF & _). cbn [bind]. destruct EA as ((p & R & HP) & O & E). start. intoX E. intoX Eb.
  unfold gt_inverse_Cayley. rewrite EF. eapply gives_bind; [apply (inverse_run G r n A B s (fst a) p M HA HB Hs R SM HM HB1)|]. intros t Ht.
  pose proof (lm_X n C comps W D RM MK (snd b) (s :: u) s Eb Hs) as GL. apply gives_sure in GL. destruct GL as ([w c] & E1 & Xw & _). rewrite E1. cbn [bind gives].
  assert (EVp : even_apart (rootQ r B s p) 0) by (eapply even_trans; [now apply (pair_even r (fun j => B j s) p q HP)|exact EV]).
  assert (EW : element W (s :: s :: u) = element W u).
  { apply (C70_word_problem n C W _ _ (ex_intro _ comps (conj D (conj RM MK)))); auto; [apply Xw|]. change (s :: s :: u) with ([s; s] ++ u). change u with ([] ++ u) at 2. now apply same_app_r, same_square. }
  rewrite (element_is n C comps W D RM MK _ _ Xw), (element_is n C comps W D RM MK _ _ E) in EW. injection EW as ->.
  destruct Ht as [(_ & ->)|(N & _)]; [|contradiction]. now destruct a.
Qed.
End Props.

(** * GL(4), with inverse transpose and reversal as distinguished involution *)
Definition m4 : matrix Z := gl_rev 4.
Definition H4 : global := Eval vm_compute in match make_global (gl_pre 4) g4_W g4_f m4 with Ok G => G | Fail _ => mk_global g4_W [] (gl_pre 4) m4 end.
Definition h4 : nat -> nat -> Z := fun i j => RootProps.ent 4 (mdata m4) j i.
Lemma H4_made : make_global (gl_pre 4) g4_W g4_f m4 = Ok H4. Proof. vm_compute. reflexivity. Qed.
Lemma H4_global : global_of 4 3 (lA 4) (lA 4) g4_A g4_f h4 H4.
Proof.
  pose proof (C162_make 4 3 (lA 4) (lA 4) (gl_pre 4) g4_W g4_f m4 _ (proj1 datum_gl4) g4_weyl g4_twist gl4_mx g4_permutes gl4_inv) as E. rewrite H4_made in E. apply E.
Qed.
Definition vq (l : list Q) : nat -> Q := fun i => nth i l 0%Q.
Lemma h4_elt l d u w (x := fun i => (nth i l 0%Z # d)%Q) : length l = 4 -> (Zpos d < 2 ^ 63)%Z -> forallb (fun z => Z.abs z <? 2 ^ 62)%Z l = true -> forallb (fun s => s <? 3) u = true -> element g4_W u = Ok w ->
  elt_of 4 3 H4 x u (mk_rv l (Zpos d), w).
Proof.
  intros L D0 B0 O E. split; [|split; [now apply over_word|exact E]]. exists x. split; [|intros i _; apply even_refl; reflexivity]. split; [cbn; lia|]. exists (fun i => nth i l 0%Z). split; [split; [exact L|]; intros i Hi; apply nth_error_nth'; cbn [fst num]; lia|].
  intros i Hi. split.
  - rewrite forallb_forall in B0. specialize (B0 (nth i l 0%Z) ltac:(apply nth_In; rewrite L; exact Hi)). apply Z.ltb_lt in B0. unfold in64. lia.
  - unfold x. unfold Qeq. cbn. lia.
Qed.
Lemma red_even y : ((Z.pos (Qden (Qred y)) =? 1) && Z.even (Qnum (Qred y)))%Z = true -> even_apart y 0.
Proof.
  intros H. apply andb_prop in H. destruct H as [C1 C2]. pose proof (Qred_correct y) as EY. destruct (Qred y) as [a b]. cbn [Qnum Qden] in *.
  apply Z.even_spec in C2. destruct C2 as (k & ->). apply Z.eqb_eq in C1. injection C1 as ->. exists k. rewrite <- EY. unfold Qeq. cbn. lia.
Qed.
Lemma h4_strong l u (x := vq l) : forallb (fun s => s <? 3) u = true -> element g4_W (u ++ relabel g4_f u) = element g4_W [] ->
  forallb (fun s => let z := Qred (rootQ 4 (lA 4) s (squareQ 4 (lA 4) (lA 4) h4 x u)) in ((Z.pos (Qden z) =? 1) && Z.even (Qnum z))%Z) [0; 1; 2] = true ->
  strong 4 3 (lA 4) (lA 4) g4_A g4_f h4 x u.
Proof.
  intros O E C0. split.
  - split; [now apply over_word|]. apply (C70_word_problem 3 g4_A g4_W _ _ g4_weyl); auto; [|intros t []]. intros t Ht. apply in_app_or in Ht. destruct Ht as [Ht|Ht]; [now apply (over_word 3 u O)|].
    now apply (d_over 3 g4_A g4_f g4_twist u (over_word 3 u O)).
  - intros s Hs. rewrite forallb_forall in C0. apply red_even, (C0 s). cbn. lia.
Qed.
Lemma h4_imaginary s u w w' k : forallb (fun s => s <? 3) (s :: u) = true -> element g4_W u = Ok w -> element g4_W (s :: u) = Ok w' -> element g4_W (u ++ [nth s g4_f 0]) = Ok w' ->
  w_length g4_W w = Ok k -> w_length g4_W w' = Ok (S k) -> nth s g4_f 0 <? 3 = true -> imaginary 3 g4_A g4_f u s.
Proof.
  intros O E E1 E2 L1 L2 F. cbn [forallb] in O. pose proof O as O0. apply andb_prop in O0. destruct O0 as [_ O']. split.
  - apply g4_same; [exact O| |congruence]. rewrite forallb_app, O'. cbn [forallb]. now rewrite F.
  - exists k. split; [now apply (g4_shortest u w)|now apply (g4_shortest (s :: u) w')].
Qed.
Lemma h4_real s u w w' k : forallb (fun s => s <? 3) (s :: u) = true -> element g4_W u = Ok w -> element g4_W (s :: u) = Ok w' -> element g4_W (u ++ [nth s g4_f 0]) = Ok w' ->
  w_length g4_W w = Ok (S k) -> w_length g4_W w' = Ok k -> nth s g4_f 0 <? 3 = true -> real 3 g4_A g4_f u s.
Proof.
  intros O E E1 E2 L1 L2 F. cbn [forallb] in O. pose proof O as O0. apply andb_prop in O0. destruct O0 as [_ O']. split.
  - apply g4_same; [exact O| |congruence]. rewrite forallb_app, O'. cbn [forallb]. now rewrite F.
  - exists k. split; [now apply (g4_shortest u w)|now apply (g4_shortest (s :: u) w')].
Qed.
Definition q1 : list Z := [3; 2; 0; 1]%Z.  Definition q2 : list Z := [5; 4; 0; 1]%Z.
Definition x1 : nat -> Q := fun i => (nth i q1 0%Z # 2)%Q.  Definition x2 : nat -> Q := fun i => (nth i q2 0%Z # 2)%Q.
Definition a1 : gelt := (mk_rv q1 2, [0; 0; 0]).  Definition a2 : gelt := (mk_rv q2 2, [0; 0; 0]).  Definition b2 : gelt := (mk_rv q2 2, [0; 1; 0]).
Lemma x1_strong u : strong 4 3 (lA 4) (lA 4) g4_A g4_f h4 (vq (map (fun z => z # 2)%Q q1)) u -> strong 4 3 (lA 4) (lA 4) g4_A g4_f h4 x1 u.
Proof. apply (C163_same 4 3 (lA 4) (lA 4) g4_A g4_f h4 H4 H4_global); [|apply same_refl]. intros i Hi. apply even_refl. do 4 (destruct i as [|i]; [reflexivity|]). lia. Qed.
Lemma x2_strong u : strong 4 3 (lA 4) (lA 4) g4_A g4_f h4 (vq (map (fun z => z # 2)%Q q2)) u -> strong 4 3 (lA 4) (lA 4) g4_A g4_f h4 x2 u.
Proof. apply (C163_same 4 3 (lA 4) (lA 4) g4_A g4_f h4 H4 H4_global); [|apply same_refl]. intros i Hi. apply even_refl. do 4 (destruct i as [|i]; [reflexivity|]). lia. Qed.
Lemma a1_hyps : elt_of 4 3 H4 x1 [] a1 /\ strong 4 3 (lA 4) (lA 4) g4_A g4_f h4 x1 [] /\ sized_by 8 (fst a1).
Proof.
  split; [apply (h4_elt q1 2 [] [0; 0; 0]); vm_compute; reflexivity|]. split; [apply x1_strong, h4_strong; vm_compute; reflexivity|]. split; [cbn; lia|]. cbn. intros x H. intuition (subst; cbn; lia).
Qed.
Lemma a2_hyps : elt_of 4 3 H4 x2 [] a2 /\ strong 4 3 (lA 4) (lA 4) g4_A g4_f h4 x2 [] /\ sized_by 8 (fst a2).
Proof.
  split; [apply (h4_elt q2 2 [] [0; 0; 0]); vm_compute; reflexivity|]. split; [apply x2_strong, h4_strong; vm_compute; reflexivity|]. split; [cbn; lia|]. cbn. intros x H. intuition (subst; cbn; lia).
Qed.
Lemma b2_hyps : elt_of 4 3 H4 x2 [1] b2 /\ strong 4 3 (lA 4) (lA 4) g4_A g4_f h4 x2 [1] /\ real 3 g4_A g4_f [1] 1.
Proof.
  split; [apply (h4_elt q2 2 [1] [0; 1; 0]); vm_compute; reflexivity|]. split; [apply x2_strong, h4_strong; vm_compute; reflexivity|]. apply (h4_real 1 [1] [0; 1; 0] [0; 0; 0] 0); vm_compute; reflexivity.
Qed.
Lemma small_sums : forall s, (s < 3)%nat -> (zsum 4 (fun i => Z.abs (lA 4 i s)) * (2 * 8) < 2 ^ 31)%Z.
Proof. intros s Hs. do 3 (destruct s as [|s]; [vm_compute; reflexivity|]). lia. Qed.
Lemma one_imaginary : imaginary 3 g4_A g4_f [] 1.
Proof. apply (h4_imaginary 1 [] [0; 0; 0] [0; 1; 0] 0); vm_compute; reflexivity. Qed.
Example C162_ex : based 4 3 (lA 4) (lA 4) (gl_pre 4) /\ weyl_of 3 g4_A g4_W /\ make_global (gl_pre 4) g4_W g4_f m4 = Ok H4 /\ global_of 4 3 (lA 4) (lA 4) g4_A g4_f h4 H4 /\
  elt_of 4 3 H4 x2 [1] b2 /\ gt_involution H4 [0; 1; 0] = Ok (mk_mat 4 4 [0; 0; 0; 1; 0; 1; 0; 0; 0; 0; 1; 0; 1; 0; 0; 0]%Z) /\
  gt_twisted H4 (fst b2) = Ok (mk_rv [3; 0; 0; 3]%Z 2) /\ gt_dual_twisted H4 (fst b2) = Ok (mk_rv [1; 0; 0; 1]%Z 2) /\ theta_torus H4 b2 = Ok (mk_rv [3; 0; 0; 3]%Z 2) /\
  weyl_act_rat g4_W (gl_pre 4) [0; 2; 1] (mk_rv [5; 4; 0; 1]%Z 2) = Ok (mk_rv [4; 1; 5; 0]%Z 2) /\ square_shifted H4 b2 = Ok (mk_rv [2; 0; 0; 0]%Z 1).
Proof.
  split; [apply datum_gl4|]. split; [exact g4_weyl|]. split; [exact H4_made|]. split; [exact H4_global|]. split; [apply b2_hyps|]. do 5 (split; [vm_compute; reflexivity|]). vm_compute. reflexivity.
Qed.
Example C163_ex : global_of 4 3 (lA 4) (lA 4) g4_A g4_f h4 H4 /\ elt_of 4 3 H4 x1 [] a1 /\ strong 4 3 (lA 4) (lA 4) g4_A g4_f h4 x1 [] /\ sized_by 8 (fst a1) /\ gt_valid H4 a1 true = Ok true /\
  gt_valid H4 (mk_rv [1; 2; 0; 1]%Z 2, [0; 0; 0]) true = Ok false /\ gt_valid H4 (mk_rv [0; 0; 0; 0]%Z 1, [0; 1; 1]) true = Ok false /\
  gt_twisted_elt H4 b2 = Ok (mk_rv [3; 0; 0; 3]%Z 2, [0; 1; 0]) /\ gt_dual_twisted_elt H4 b2 = Ok (mk_rv [1; 0; 0; 1]%Z 2, [0; 1; 0]).
Proof.
  split; [exact H4_global|]. destruct a1_hyps as (E1 & E2 & E3). split; [exact E1|]. split; [exact E2|]. split; [exact E3|]. do 4 (split; [vm_compute; reflexivity|]). vm_compute. reflexivity.
Qed.
(** an imaginary generator, a complex one, a word *)
Example C164_ex : global_of 4 3 (lA 4) (lA 4) g4_A g4_f h4 H4 /\ elt_of 4 3 H4 x1 [] a1 /\ strong 4 3 (lA 4) (lA 4) g4_A g4_f h4 x1 [] /\ imaginary 3 g4_A g4_f [] 1 /\
  gt_cross H4 1 a1 = Ok (a1, 0%Z) /\ gt_cross H4 1 a2 = Ok ((mk_rv [1; 2; 2; 1]%Z 2, [0; 0; 0]), 0%Z) /\ gt_cross H4 0 a1 = Ok ((mk_rv [2; 3; 0; 1]%Z 2, [1; 0; 1]), 1%Z) /\
  gt_cross_left H4 [1; 0] a1 = Ok ((mk_rv [2; 0; 3; 1]%Z 2, [0; 2; 2]), 2%Z) /\ gt_cross_right H4 a1 [0; 1] = gt_cross_left H4 [1; 0] a1 /\ gt_descents H4 b2 = Ok [false; true; false].
Proof.
  split; [exact H4_global|]. destruct a1_hyps as (E1 & E2 & E3). split; [exact E1|]. split; [exact E2|]. split; [exact one_imaginary|]. do 5 (split; [vm_compute; reflexivity|]). vm_compute. reflexivity.
Qed.
Example C165_ex : global_of 4 3 (lA 4) (lA 4) g4_A g4_f h4 H4 /\ elt_of 4 3 H4 x2 [] a2 /\ strong 4 3 (lA 4) (lA 4) g4_A g4_f h4 x2 [] /\ imaginary 3 g4_A g4_f [] 1 /\
  gt_compact H4 1 a1 = Ok true /\ gt_compact H4 1 a2 = Ok false /\ gt_Cayley H4 1 a2 = Ok b2 /\ real 3 g4_A g4_f [1] 1 /\ gt_inverse_Cayley H4 1 b2 = Ok a2 /\
  gt_inverse_Cayley H4 1 (mk_rv [5; 4; 1; 1]%Z 2, [0; 1; 0]) = Ok (mk_rv [2; 5; 5; 2]%Z 4, [0; 0; 0]).
Proof.
  split; [exact H4_global|]. destruct a2_hyps as (E1 & E2 & E3). split; [exact E1|]. split; [exact E2|]. split; [exact one_imaginary|]. do 3 (split; [vm_compute; reflexivity|]). split; [apply b2_hyps|]. split; vm_compute; reflexivity.
Qed.

(** * Losses of precision for denominators above 2^32, in rank 1 *)
Definition k1_comps : list component := [mk_comp "A"%char 0 [0]].
Definition k1_A : nat -> nat -> Z := fun _ _ => 2%Z.  Definition k1_B : nat -> nat -> Z := fun _ _ => 1%Z.
Definition k1_W : weyl_group := Eval vm_compute in match make_weyl 1 k1_comps with Ok W => W | Fail _ => mk_weyl [] [] [] [] [] end.
Definition K1 : global := mk_global k1_W [0] (mk_pre (mk_mat 1 1 [2]%Z) (mk_mat 1 1 [1]%Z) false) (mk_mat 1 1 [1]%Z).
Lemma k1_describes : describes 1 k1_A k1_comps.
Proof.
  split; [vm_compute; auto|]. split; [reflexivity|]. split.
  - intros c H. cbn in H. destruct H as [<-|[]]. split; [cbn; lia|]. intros i j p q Hi Hj.
    destruct i as [|i]; [|destruct i; discriminate]. destruct j as [|j]; [|destruct j; discriminate]. cbn in Hi, Hj. injection Hi as <-. injection Hj as <-. reflexivity.
  - intros c d p q H J N _ _. cbn in H, J. destruct H as [<-|[]], J as [<-|[]]. cbn in N. lia.
Qed.
Lemma K1_global : global_of 1 1 k1_A k1_B k1_A [0] k1_B K1.
Proof.
  split; [exists k1_comps; split; [exact k1_describes|]; split; [lia|vm_compute; reflexivity]|]. split; [reflexivity|].
  split; [is_matrix 1%nat 1%nat|]. split; [is_matrix 1%nat 1%nat|]. split; [is_matrix 1%nat 1%nat|]. split; [|split; [|split; [|split]]].
  - split; [reflexivity|]. split; [intros s Hs; destruct s; [cbn; lia|lia]|]. intros s t _ _. reflexivity.
  - intros s t _ _. reflexivity.
  - intros i j Hi Hj. destruct i; [|lia]. destruct j; [|lia]. reflexivity.
  - intros s i _ _. reflexivity.
  - intros s i _ _. reflexivity.
Qed.
Lemma k1_over u : forallb (fun s => s <? 1) u = true -> over 1 u. Proof. apply over_word. Qed.
Lemma k1_weyl : weyl_of 1 k1_A k1_W. Proof. apply K1_global. Qed.
Lemma k1_short u w k : forallb (fun s => s <? 1) u = true -> element k1_W u = Ok w -> w_length k1_W w = Ok k -> shortest 1 (coxeter k1_A) u k.
Proof. intros H E L. destruct (C72_length 1 k1_A k1_W k1_weyl w u (over_word 1 u H) E) as (k' & L' & R). rewrite L in L'. injection L' as ->. exact R. Qed.
Lemma k1_im : imaginary 1 k1_A [0] [] 0.
Proof. split; [apply same_refl|]. exists 0. split; [apply (k1_short [] [0] 0)|apply (k1_short [0] [1] 1)]; vm_compute; reflexivity. Qed.
Lemma k1_re : real 1 k1_A [0] [0] 0.
Proof. split; [apply same_refl|]. exists 0. split; [apply (k1_short [0] [1] 1)|apply (k1_short [0; 0] [0] 0)]; vm_compute; reflexivity. Qed.
Lemma k1_elt z d u w : (Zpos d < 2 ^ 63)%Z -> (Z.abs z < 2 ^ 62)%Z -> forallb (fun s => s <? 1) u = true -> element k1_W u = Ok w -> elt_of 1 1 K1 (fun _ => z # d)%Q u (mk_rv [z] (Zpos d), w).
Proof.
  intros D0 B0 O E. split; [|split; [now apply over_word|exact E]]. exists (fun _ => z # d)%Q. split; [|intros i _; apply even_refl; reflexivity]. split; [cbn; lia|]. exists (fun _ => z). split.
  - split; [reflexivity|]. intros i Hi. destruct i; [reflexivity|lia].
  - intros i Hi. split; [unfold in64; lia|]. unfold Qeq. cbn. lia.
Qed.
Lemma not_even a b z d : (Z.rem z (2 * Zpos d) <> 0)%Z -> (a - b == z # d)%Q -> ~ even_apart a b.
Proof.
  intros N E (k & H). rewrite E in H. apply N. unfold Qeq in H. cbn [Qnum Qden inject_Z] in H. rewrite Z.mul_1_r in H. rewrite H. rewrite <- (Z.mul_assoc 2 k), (Z.mul_comm k), Z.mul_assoc, Z.mul_comm. apply Z.rem_mul. lia.
Qed.
(** an element that is not valid: the cross action of an imaginary generator is computed wrongly *)
Theorem C164_narrow_refuted : exists r n A B C f g G q u a s M b c, global_of r n A B C f g G /\ elt_of r n G q u a /\ twisted_involution n C f u /\ imaginary n C f u s /\ s < n /\
  sized_by M (fst a) /\ (M < 2 ^ 60)%Z /\ gt_cross G s a = Ok (b, c) /\ forall q', is_exp (fst b) r q' -> ~ crossed r n A B C f s q u q'.
Proof.
  exists 1, 1, k1_A, k1_B, k1_A, [0], k1_B, K1, (fun _ => 8589934593 # 4294967297)%Q, [], (mk_rv [8589934593]%Z 4294967297, [0]), 0, (2 ^ 34)%Z, (mk_rv [8589934593]%Z 4294967297, [0]), 0%Z.
  split; [exact K1_global|]. split; [apply k1_elt; vm_compute; reflexivity|]. split; [split; [intros t []|apply same_refl]|]. split; [exact k1_im|]. split; [lia|].
  split; [split; [cbn; lia|]; intros x [<-|[]]; cbn; lia|]. split; [lia|]. split; [vm_compute; reflexivity|].
  intros q' (p & (_ & x & (_ & V) & HX) & HD) (_ & CR & _). specialize (CR k1_im 0 ltac:(lia)). specialize (HD 0 ltac:(lia)). destruct (HX 0 ltac:(lia)) as [_ E0]. specialize (V 0 ltac:(lia)). cbn in V. injection V as V. rewrite <- V in E0. cbn [den fst] in E0.
  pose proof (even_trans _ _ _ HD CR) as EV. revert EV. apply (not_even _ _ 8589934592 4294967297); [vm_compute; discriminate|].
  assert (EP : (p 0%nat == 8589934593 # 4294967297)%Q). { apply (Qmult_inj_r _ _ (inject_Z 4294967297)); [discriminate|]. rewrite <- E0. reflexivity. }
  rewrite EP. vm_compute. reflexivity.
Qed.
(** a valid element whose image by an inverse Cayley transform is not valid *)
Theorem C165_narrow_refuted : exists r n A B C f g G q u a s M b, global_of r n A B C f g G /\ elt_of r n G q u a /\ strong r n A B C f g q u /\ real n C f u s /\ s < n /\
  sized_by M (fst a) /\ (M < 2 ^ 60)%Z /\ gt_inverse_Cayley G s a = Ok b /\ forall q' v, elt_of r n G q' v b -> ~ strong r n A B C f g q' v.
Proof.
  exists 1, 1, k1_A, k1_B, k1_A, [0], k1_B, K1, (fun _ => 8589934592 # 4294967297)%Q, [0], (mk_rv [8589934592]%Z 4294967297, [1]), 0, (2 ^ 34)%Z, (mk_rv [8589934592]%Z 4294967297, [0]).
  split; [exact K1_global|]. split; [apply k1_elt; vm_compute; reflexivity|]. split.
  { split; [split; [now apply over_word|apply same_square; lia]|]. intros s Hs. exists 0%Z. destruct s; [|lia]. vm_compute. reflexivity. }
  split; [exact k1_re|]. split; [lia|]. split; [split; [cbn; lia|]; intros x [<-|[]]; cbn; lia|]. split; [lia|]. split; [vm_compute; reflexivity|].
  intros q' v ((p & (_ & x & (_ & V) & HX) & HD) & O & E) S0. cbn [fst snd] in *.
  assert (SV : same 1 (coxeter k1_A) v []). { apply (C70_word_problem 1 k1_A k1_W v [] k1_weyl O); [intros t []|]. change (gt_W K1) with k1_W in E. rewrite E. vm_compute. reflexivity. }
  pose proof (C163_same 1 1 k1_A k1_B k1_A [0] k1_B K1 K1_global q' p v [] (diff_sym 1 p q' HD) SV S0) as (_ & P). specialize (P 0 ltac:(lia)).
  destruct (HX 0 ltac:(lia)) as [_ E0]. specialize (V 0 ltac:(lia)). cbn in V. injection V as V. rewrite <- V in E0. cbn [den fst] in E0.
  assert (EP : (p 0%nat == 8589934592 # 4294967297)%Q). { apply (Qmult_inj_r _ _ (inject_Z 4294967297)); [discriminate|]. rewrite <- E0. reflexivity. }
  revert P. apply (not_even _ _ 17179869184 4294967297); [vm_compute; discriminate|]. unfold rootQ, squareQ, thetaQ, wordQ, pairQ, actQ, qsum. cbn [fold_right fsum k1_B]. rewrite EP. vm_compute. reflexivity.
Qed.

Print Assumptions C162_make.
Print Assumptions C162_involution.
Print Assumptions C162_action.
Print Assumptions C162_same.
Print Assumptions C162_twisted.
Print Assumptions C162_dual_twisted.
Print Assumptions C162_theta.
Print Assumptions C162_square.
Print Assumptions C163_valid.
Print Assumptions C163_same.
Print Assumptions C163_involution.
Print Assumptions C163_square_fixed.
Print Assumptions C163_twisted.
Print Assumptions C163_twisted_valid.
Print Assumptions C163_dual_twisted.
Print Assumptions C164_types.
Print Assumptions C164_cross.
Print Assumptions C164_twice.
Print Assumptions C164_left.
Print Assumptions C164_right.
Print Assumptions C164_descents.
Print Assumptions C165_compact.
Print Assumptions C165_Cayley.
Print Assumptions C165_inverse.
Print Assumptions C165_back.
Print Assumptions C164_narrow_refuted.
Print Assumptions C165_narrow_refuted.
