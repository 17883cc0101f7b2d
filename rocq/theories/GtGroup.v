(** Global Tits groups: what the methods compute. *)

From Coq Require Import List Arith ZArith QArith Qfield Bool Lia Lqa.
From Verif Require Import RootModel.
From Verif Require Import WeylModel WeylSpec WeylTable WeylExchange WeylGroup WeylOps WeylMore WeylMake WeylExt WeylProps TwistSpec TwistModel TwistWords TwistProofs.
From Verif Require Import BitsModel VecModel RunModel RunProofs MatModel MatSpec MatProofs MatOps MatArith MatDiv MatLin ArithModel ArithSpec ArithProofs
  RatVecModel RatVecSpec RatVecProofs RatVecOps RatVecMore RatVecProps RootSpec DatModel DatSpec DatProofs DatOps DatMats DatProps YvModel YvSpec YvProofs YvOps YvAct GtModel GtSpec GtMath GtTheta GtRuns.
From Verif Require TwistProps.
Import ListNotations.
Open Scope nat_scope.

Section Group.
Variables (r n : nat) (A B C : nat -> nat -> Z) (f : list nat) (g : nat -> nat -> Z) (G : global) (comps : list component).
Hypothesis D : describes n C comps.
Hypothesis RM : n <= rank_max.
Hypothesis MK : make_weyl n comps = Ok (gt_W G).
Hypothesis HF : gt_twist G = f.
Hypothesis HA : is_mx (p_roots (gt_prd G)) r n A.
Hypothesis HB : is_mx (p_coroots (gt_prd G)) r n B.
Hypothesis HD : is_mx (gt_delta G) r r g.
Hypothesis K : compatible r n A B C f g.
Notation W := (gt_W G).
Notation X := (X n C comps W).
Notation "u ~ v" := (same n (coxeter C) u v) (at level 70).
Notation act := (wordQ r A B).
Notation refl := (reflQ r A B).
Notation th := (thetaQ r A B g).
Notation gq := (actQ r g).
Notation fs s := (nth s f 0%nat).
Notation TI := (twisted_involution n C f).
Notation CA := (Cart n C comps W D RM MK).
Notation ell := (ellx n comps W).
Notation ELL := (ELLx n C comps W D RM MK).
Notation TW := (proj1 K).
Notation PR := (proj1 (proj2 K)).
Notation GG := (proj1 (proj2 (proj2 K))).
Notation GA := (proj1 (proj2 (proj2 (proj2 K)))).
Notation GB := (proj2 (proj2 (proj2 (proj2 K)))).

Lemma act_run {Y} (P : list nat -> Y -> Prop) E (rf : nat -> Y -> res Y) w u x : X w u -> P [] x ->
  (forall u y s, s < n -> over n u -> P u y -> gives (rf s y) (P (s :: u)) E) -> (forall u v y, u ~ v -> P u y -> P v y) -> gives (weyl_act W rf w x) (P u) E.
Proof.
  intros Xw H0 HS HE. pose proof (X_valid n C comps W w u Xw) as V. eapply gives_mono; [apply (weyl_act_ev n C comps W D RM MK P E rf w x V H0 HS)|].
  intros y Hy. eapply HE; [|exact Hy]. apply (X_eq n C comps W D RM MK w); [now apply (X_of_valid n C comps W D RM MK)|exact Xw].
Qed.
Lemma act_vec_run v p w u : X w u -> is_rv v r p ->
  gives (weyl_act_rat W (gt_prd G) w v) (fun v' => den v' = den v /\ is_rv v' r (act u p)) ovf.
Proof.
  intros Xw R. unfold weyl_act_rat, weyl_act_vec. eapply gives_bind.
  - apply (act_run (fun u y => is_rv (mk_rv y (den v)) r (act u p)) ovf (p_reflect fits64 (gt_prd G)) w u (num v) Xw).
    + destruct v. exact R.
    + intros u' y s Hs Ou Ry. pose proof (te_simple_ok r n A B (gt_prd G) s (mk_rv y (den v)) _ HA HB Hs Ry) as G0. unfold te_simple_reflect in G0. cbn [num den] in G0.
      destruct (p_reflect fits64 (gt_prd G) s y) as [y'|e]; cbn [bind gives] in G0 |- *; [apply G0|apply G0].
    + intros u' v' y E Ry. eapply is_rv_ext; [exact Ry|]. intros i Hi. apply (act_same r n A B C CA PR u' v' E p i Hi).
  - intros y Ry. cbn [gives den]. split; [reflexivity|exact Ry].
Qed.
Lemma reflect_matrix s h q i : s < n -> i < r -> (actQ r (fmul r (rmatrix (fcol r A s) (fcol r B s)) h) q i == refl s (actQ r h q) i)%Q.
Proof.
  intros Hs Hi. unfold reflQ, rootQ.
  rewrite (pair_mx r h (fun j => B j s) q). change (actQ r h q i) with (pairQ r (fun j => h i j) q).
  transitivity (pairQ r (fun j => h i j) q + pairQ r (fun j => - A i s * zsum r (fun k => B k s * h k j))%Z q)%Q.
  - unfold actQ, pairQ. rewrite <- qsum_plus. apply qsum_ext. intros j Hj. rewrite <- left_is_product by exact Hi. rewrite (co_fcol r A s i Hi).
    rewrite (zsum_ext r (fun k => co (fcol r B s) k * h k j)%Z (fun k => B k s * h k j)%Z) by (intros k Hk; rewrite (co_fcol r B s k Hk); reflexivity).
    replace (h i j - A i s * zsum r (fun k => B k s * h k j))%Z with (h i j + - A i s * zsum r (fun k => B k s * h k j))%Z by ring. rewrite inject_Z_plus. ring.
  - apply Qplus_comp; [reflexivity|]. unfold pairQ. rewrite (Qmult_comm _ (inject_Z (A i s))). transitivity ((- inject_Z (A i s)) * qsum r (fun j => inject_Z (zsum r (fun k => B k s * h k j)%Z) * q j))%Q; [|ring].
    rewrite Qmult_comm, <- qsum_scale. apply qsum_ext. intros j Hj. rewrite inject_Z_mult, inject_Z_opp. ring.
Qed.
Lemma involution_run w u : X w u -> gives (gt_involution G w) (fun M => exists h, is_mx M r r h /\ forall q i, i < r -> (actQ r h q i == - th u q i)%Q) ovf.
Proof.
  intros Xw. unfold gt_involution. eapply gives_bind; [apply (to_ovf _ _ (overflows fits_int)); [intros e [-> _]; reflexivity|eapply (mat_negate_ok (zarith fits_int)); [apply zarith_ok|exact HD]]|].
  intros M0 HM. unfold weyl_act_mat. apply (act_run (fun u M => exists h, is_mx M r r h /\ forall q i, i < r -> (actQ r h q i == - th u q i)%Q) ovf (p_reflect_left fits_int (gt_prd G)) w u M0 Xw).
  - exists (fun i j => - g i j)%Z. split; [exact HM|]. intros q i Hi. change (th [] q i) with (qsum r (fun j => inject_Z (g i j) * q j))%Q. unfold actQ. transitivity (qsum r (fun j => inject_Z (g i j) * q j) * - (1))%Q; [|ring].
    rewrite <- qsum_scale. apply qsum_ext. intros j Hj. rewrite inject_Z_opp. ring.
  - intros u' M s Hs Ou (h & Hh & HQ). apply (to_ovf _ _ (overflows fits_int)); [intros e [-> _]; reflexivity|].
    eapply gives_mono; [apply (p_left_run fits_int r n A B (gt_prd G) HA HB s M r h Hs Hh)|]. intros N HN. eexists. split; [exact HN|]. intros q i Hi. rewrite (reflect_matrix s h q i Hs Hi).
    rewrite (refl_ext r A B s (actQ r h q) (fun i => - (1) * th u' q i)%Q ltac:(intros j Hj; rewrite (HQ q j Hj); ring) i Hi). rewrite (refl_scale r A B s (th u' q) (- (1))%Q i Hi). rewrite th_cons. ring.
  - intros u' v M E (h & Hh & HQ). exists h. split; [exact Hh|]. intros q i Hi. rewrite (HQ q i Hi). now rewrite (th_same r n A B C CA PR g u' v q E i Hi).
Qed.
Lemma mat_run v p : is_rv v r p -> gives (rv_mat (gt_delta G) v) (fun v' => is_rv v' r (gq p) /\ den v' = den v) ovf.
Proof. intros R. apply (to_ovf _ _ _ (fun e H => proj1 H) (C85_matrix (gt_delta G) r r g v p HD R)). Qed.
Lemma twisted_run x q : is_exp x r q -> gives (gt_twisted G x) (fun y => is_torus y r (gq q) /\ den y = den x) ovf.
Proof.
  intros (p & R & HP). unfold gt_twisted, log_pi. cbn [bind]. eapply gives_bind; [apply (mat_run x p R)|]. intros v (Rv & Dv).
  apply (to_ovf _ _ (large_den v)); [intros e H; apply H|]. eapply gives_mono; [apply (make_false v r _ Rv)|]. intros y (Ty & Dy). split; [|congruence].
  eapply torus_ext; [exact Ty|]. now apply (diff_mx r g).
Qed.
Lemma theta_rv a p u : X (snd a) u -> is_rv (fst a) r p -> gives (theta_torus G a) (fun y => is_torus y r (th u p) /\ den y = den (fst a)) ovf.
Proof.
  intros Xw R. unfold theta_torus, log_pi. cbn [bind]. eapply gives_bind; [apply (mat_run (fst a) p R)|]. intros v (Rv & Dv).
  eapply gives_bind; [apply (act_vec_run v _ (snd a) u Xw Rv)|]. intros v' (Dv' & Rv'). apply (to_ovf _ _ (large_den v')); [intros e H; apply H|].
  eapply gives_mono; [apply (make_false v' r _ Rv')|]. intros y (Ty & Dy). split; [exact Ty|congruence].
Qed.
Lemma dual_twisted_run x q w0 u0 : longest W = Ok w0 -> X w0 u0 -> is_exp x r q -> gives (gt_dual_twisted G x) (fun y => is_torus y r (fun i => - gq (act u0 q) i)%Q /\ den y = den x) ovf.
Proof.
  intros Lw X0 (p & R & HP). unfold gt_dual_twisted, log_pi. cbn [bind]. rewrite Lw. cbn [bind]. eapply gives_bind; [apply (act_vec_run x p w0 u0 X0 R)|]. intros v (Dv & Rv). pose proof Rv as (D0 & x0 & V0 & HX).
  eapply gives_bind; [apply (to_ovf _ _ (overflows fits64)); [intros e [-> _]; reflexivity|eapply (vec_negate_ok RV); [apply zarith_ok|exact V0]]|]. intros m Vm.
  eapply gives_bind; [apply (to_ovf _ _ _ (fun e H => proj1 H) (apply64 (gt_delta G) r r g m _ HD Vm))|]. intros y (Vy & By).
  unfold rv_denominator. rewrite s64_small by lia.
  eapply gives_bind; [apply (to_ovf _ _ _ (fun e H => proj1 H) (make_ok y r _ (den v) Vy By ltac:(lia) ltac:(lia)))|]. intros v1 (R1 & D1).
  apply (to_ovf _ _ (large_den v1)); [intros e H; apply H|]. eapply gives_mono; [apply (make_false v1 r _ R1)|]. intros t (Tt & Dt). split; [|rewrite Dt, D1, <- Dv; apply Z.abs_eq; lia].
  eapply torus_ext; [exact Tt|]. intros i Hi. cbv beta. apply (even_eq (- gq (act u0 p) i) (- gq (act u0 q) i)); [|reflexivity|].
  - unfold fapply. rewrite (pair_num r (fun j => g i j) _ (fun j => - act u0 p j)%Q (den v)).
    + change (pairQ r (fun j => g i j) (fun j => - act u0 p j)%Q) with (gq (fun j => - act u0 p j)%Q i). rewrite (actQ_ext r g (fun j => - act u0 p j)%Q (fun j => - (1) * act u0 p j)%Q ltac:(intros j Hj; ring) i Hi).
      rewrite (actQ_scale r g (act u0 p) (- (1))%Q i Hi). field. apply inj_neq0. lia.
    + intros j Hj. rewrite inject_Z_opp, (proj2 (HX j Hj)). ring.
  - apply even_opp. apply (diff_mx r g); [|exact Hi]. now apply (diff_act r A B).
Qed.
Lemma square_rv a p u M : X (snd a) u -> is_rv (fst a) r p -> sized_by M (fst a) -> (M < 2 ^ 60)%Z ->
  gives (square_shifted G a) (fun y => is_exp y r (squareQ r A B g p u) /\ sized_by (2 * M) y /\ (den y | den (fst a))%Z) ovf.
Proof.
  intros Xw R SM HM. unfold square_shifted. eapply gives_bind; [apply (theta_rv a p u Xw R)|]. intros y (Ty & Dy).
  eapply gives_conv; [| |apply (te_add_rv (fst a) y r p _ 1 M R Ty)]; try lia; auto.
  - intros v (H1 & H2 & H3). rewrite Z.mul_1_l in H3. auto.
  - intros e [].
  - rewrite Dy. exists 1%Z. ring.
Qed.
Lemma exp_square p q u y : is_diff r p q -> is_exp y r (squareQ r A B g p u) -> is_exp y r (squareQ r A B g q u).
Proof. intros H (p' & R' & H'). exists p'. split; [exact R'|]. intros i Hi. eapply even_trans; [now apply H'|]. now apply (sq_diff r A B g u). Qed.
Lemma valid_run a q u M tw : X (snd a) u -> is_exp (fst a) r q -> sized_by M (fst a) -> (M < 2 ^ 60)%Z ->
  (forall s, (s < n)%nat -> zsum r (fun i => Z.abs (B i s)) * (2 * M) < 2 ^ 31)%Z -> (tw = false -> TI u) ->
  gives (gt_valid G a tw) (fun b => b = true <-> strong r n A B C f g q u) ovf.
Proof.
  intros Xw (p & R & HP) SM HM HS HT. unfold gt_valid.
  assert (KB : gives (if tw then run t <- twisted W (gt_twist G) (snd a); run x <- mult W t (snd a); Ok (same_elt x (w_id W)) else Ok true) (fun b => b = true <-> TI u) ovf).
  { destruct tw; [|cbn [gives]; split; [intros _; auto|auto]]. rewrite HF. pose proof Xw as [O _]. pose proof (X_valid n C comps W _ u Xw) as V.
    assert (WO : weyl_of n C W) by (exists comps; auto).
    rewrite (TwistProps.C78_twisted n C W WO f TW (snd a) u O (element_is n C comps W D RM MK _ u Xw)).
    assert (OR : over n (relabel f u)) by now apply (d_over n C f TW).
    destruct (X_el n C comps W D RM MK (relabel f u) OR) as (x & Rx). rewrite (element_is n C comps W D RM MK _ _ Rx). cbn [bind].
    pose proof (mult_X n C comps W D RM MK x (snd a) _ _ Rx Xw) as GM. apply gives_sure in GM. destruct GM as (y & Ey & Ry). rewrite Ey. cbn [bind gives].
    rewrite same_elt_ok. split.
    - intros ->. pose proof (X_eq n C comps W D RM MK _ _ _ Ry (X_id n C comps W D RM MK)) as E. apply (TI_of n C f u O).
      apply (same_cancel_r n (coxeter C) _ _ u O). apply (same_trans n _ _ []); [exact E|]. apply same_sym. now apply same_inverse_l.
    - intros T. pose proof (TI_rev n C f u T) as E. apply (X_unique n C comps W D RM MK _ _ [] ); [|apply (X_id n C comps W D RM MK)].
      apply (X_same n C comps W D RM MK _ _ _ Ry). apply (same_trans n _ _ (rev u ++ u)); [now apply same_app_r|now apply same_inverse_l]. }
  eapply gives_bind; [exact KB|]. intros b Hb. destruct b.
  - pose proof (proj1 Hb eq_refl) as T. eapply gives_bind; [apply (square_rv a p u M Xw R SM HM)|]. intros y (Hy & Sy & Dy). pose proof (exp_square p q u y HP Hy) as Hq.
    assert (D0 : (0 < den (fst a) < 2 ^ 63)%Z) by apply R. assert (den y <= den (fst a))%Z by (apply Z.divide_pos_le; [lia|exact Dy]). pose proof (proj1 SM).
    eapply gives_conv; [| |apply (central_rv to_int (p_coroots (gt_prd G)) y r n B (squareQ r A B g q u) (2 * M)%Z)]; try lia; auto.
    + intros b Hb'. rewrite Hb'. unfold strong, centralQ, rootQ. tauto.
    + intros e [].
    + intros z Hz. apply to_int_id. lia.
  - cbn [gives]. split; [discriminate|]. intros [T _]. apply Hb in T. discriminate.
Qed.

(** *** cross actions *)
Lemma comm_is s u : s < n -> over n u -> (comm n C f s u <-> commutes n C f u s).
Proof. intros Hs O. apply (comm_iff n C f TW s u Hs O). Qed.
Lemma types s u : s < n -> over n u -> commutes n C f u s -> (ell (s :: u) < ell u -> real n C f u s) /\ (~ ell (s :: u) < ell u -> imaginary n C f u s).
Proof.
  intros Hs O E. assert (O1 : over n (s :: u)) by now apply over_cons. pose proof (ELL u O) as L0. pose proof (ELL (s :: u) O1) as L1.
  destruct (ell_cons n (coxeter C) ell ELL s u Hs O) as [E1|E1].
  - split; [lia|]. intros _. split; [exact E|]. exists (ell u). split; [exact L0|]. rewrite <- E1. exact L1.
  - split; [|lia]. intros _. split; [exact E|]. exists (ell (s :: u)). split; [rewrite <- E1; exact L0|exact L1].
Qed.
Lemma not_both s u : imaginary n C f u s -> real n C f u s -> False.
Proof. intros (_ & k & K1 & K2) (_ & k' & K3 & K4). pose proof (short_once n C _ _ _ K1 K3). pose proof (short_once n C _ _ _ K2 K4). lia. Qed.
Lemma cross_run a p q u s M : X (snd a) u -> TI u -> s < n -> is_rv (fst a) r p -> is_diff r p q -> sized_by M (fst a) -> (M < 2 ^ 60)%Z ->
  (imaginary n C f u s -> (den (fst a) < 2 ^ 31)%Z \/ exists z, (rootQ r B s q == inject_Z z)%Q) ->
  gives (gt_cross G s a) (fun '(b, c) => X (snd b) (s :: u ++ [fs s]) /\ half_change n C c (s :: u ++ [fs s]) u /\ exists q', is_exp (fst b) r q' /\ crossed r n A B C f s q u q') ovf.
Proof.
  intros Xw T Hs R HP SM HM HI. pose proof T as [O _]. destruct a as [t w]. cbn [fst snd] in *. unfold gt_cross. rewrite HF.
  pose proof (tc_X n C comps W D RM MK f TW w u s Xw Hs) as GC. apply gives_sure in GC. destruct GC as ([w1 d] & E1 & X1 & ED). rewrite E1. cbn [bind].
  assert (OV : over n (s :: u ++ [fs s])) by apply X1.
  assert (HC : forall c, (2 * c = d)%Z -> half_change n C c (s :: u ++ [fs s]) u).
  { intros c Hc a b Ka Kb. rewrite (short_once n C _ _ _ Ka (ELL _ OV)), (short_once n C _ _ _ Kb (ELL _ O)). lia. }
  destruct (comm_dec n C comps W D RM MK f TW s u Hs O) as [CM|CM].
  - pose proof CM as CM0. assert (D0 : d = 0%Z) by (apply (comm_ell n C f TW (eqx W) (EQX n C comps W D RM MK) ell ELL s u Hs T) in CM; lia). rewrite D0. cbn [Z.eqb negb]. apply (comm_is s u Hs O) in CM.
    destruct (types s u Hs O CM) as [TR TM]. pose proof (hd_X n C comps W D RM MK w1 _ s X1 Hs) as GD. apply gives_sure in GD. destruct GD as (b & E2 & Hb). rewrite E2. cbn [bind].
    assert (SL : ell (s :: s :: u ++ [fs s]) = ell (s :: u) /\ ell (s :: u ++ [fs s]) = ell u).
    { split; apply (ell_same n (coxeter C) ell ELL); auto; [now apply over_cons|]. now apply same_cons. }
    destruct SL as [S1 S2]. rewrite S1, S2 in Hb. destruct b; cbn [negb].
    + cbn [gives fst snd]. split; [exact X1|]. split; [apply HC; lia|]. exists q. split; [exists p; auto|]. pose proof (TR (proj1 Hb eq_refl)) as RE. split; [intros N; contradiction|]. split; [intros I0; destruct (not_both s u I0 RE)|].
      intros _ i Hi. apply even_refl. reflexivity.
    + assert (IM : imaginary n C f u s) by (apply TM; intros L0; apply Hb in L0; discriminate).
      eapply gives_bind; [apply (imaginary_run G r n A B s t p M HA HB Hs R SM HM)|].
      * destruct (HI IM) as [LT|(z & Ez)]; [left; exact LT|]. right. destruct (pair_even r (fun j => B j s) p q HP) as (k & Ek). exists (z + 2 * k)%Z. unfold rootQ in *. rewrite inject_Z_plus, <- Ek, <- Ez. ring.
      * intros t' (Ht & _). cbn [gives fst snd]. split; [exact X1|]. split; [apply HC; lia|]. destruct Ht as (p' & R' & H'). exists (fun i => refl s q i + inject_Z (A i s))%Q. split.
        -- exists p'. split; [exact R'|]. intros i Hi. eapply even_trans; [apply (H' i Hi)|]. apply even_add; [|apply even_refl; reflexivity]. now apply (diff_act r A B [s]).
        -- split; [intros N; contradiction|]. split; [intros _ i Hi; apply even_refl; reflexivity|]. intros RE. destruct (not_both s u IM RE).
  - assert (D2 : d = 2%Z \/ d = (-2)%Z).
    { destruct (conj_ell n C f TW (eqx W) (EQX n C comps W D RM MK) ell ELL s u Hs T CM) as [H1 H2]. destruct (ell_cons n (coxeter C) ell ELL s u Hs O); lia. }
    rewrite (comm_is s u Hs O) in CM. assert (NE : (d =? 0)%Z = false) by (apply Z.eqb_neq; lia). rewrite NE. cbn [negb].
    eapply gives_bind; [apply (to_ovf _ _ (overflows fits64)); [intros e [-> _]; reflexivity|apply (te_simple_ok r n A B (gt_prd G) s t p HA HB Hs R)]|].
    intros t' (_ & R'). cbn [gives fst snd]. split; [exact X1|]. split; [apply HC; destruct D2 as [-> | ->]; reflexivity|]. exists (refl s q). split.
    + eexists. split; [exact R'|]. now apply (diff_act r A B [s] p q).
    + split; [intros _ i Hi; apply even_refl; reflexivity|]. split; intros KK; destruct (CM (proj1 KK)).
Qed.
End Group.
