(** Tits groups: the operations that use the twist and the base element of a coset *)

From Coq Require Import List Arith NArith ZArith Lia Bool.
From Verif Require Import VecModel VecProofs RunModel RunProofs MatSpec MatLin F2Model F2Spec F2Basics F2Proofs F2Solve F2Ops F2Kernel WeylModel WeylSpec TwistSpec TwistModel
  WeylTable WeylCheck WeylExchange WeylGroup WeylOps WeylMore WeylMake WeylExt WeylSign TwistProofs TgModel TgSpec TgSem TgMath TgProofs TgCoset.
Import ListNotations.
Open Scope nat_scope.

Lemma image_lin M x y : image_of M (N.lxor x y) = N.lxor (image_of M x) (image_of M y).
Proof. unfold image_of. rewrite <- lincomb_xor. apply lincomb_ext. intros i _. apply coord_lxor. Qed.
Lemma image_0 M : image_of M 0 = 0%N.
Proof. apply lincomb_0. intros i _. apply coord_0. Qed.
Lemma image_within m n M x : is_matrix m n M -> within m (image_of M x).
Proof.
  intros [_ B] i Hi. rewrite image_coord. apply sum2_zero. intros k Hk. unfold F2Spec.entry. rewrite (B (nth k M 0%N)); [auto|now apply nth_In|auto].
Qed.
Definition unit2 (i : nat) : N := N.setbit 0 (N.of_nat i).
Lemma coord_unit2 i j : coord (unit2 i) j = (j =? i).
Proof.
  unfold coord, unit2. destruct (Nat.eqb_spec j i) as [->|NE]; [apply N.setbit_eq|]. rewrite N.setbit_neq by lia. apply N.bits_0.
Qed.
Lemma unit2_of x i : (forall j, coord x j = (j =? i)) -> x = unit2 i.
Proof. intros H. apply coord_ext. intros j. now rewrite H, coord_unit2. Qed.
(** two linear maps equal on the basis *)
Lemma lin_eq (F H : N -> N) k : (forall x y, F (N.lxor x y) = N.lxor (F x) (F y)) -> (forall x y, H (N.lxor x y) = N.lxor (H x) (H y)) ->
  (forall i, i < k -> F (unit2 i) = H (unit2 i)) -> forall x, within k x -> F x = H x.
Proof.
  intros LF LH. induction k as [|k IH]; intros E x B.
  - assert (x = 0%N) as -> by (apply coord_ext; intros i; rewrite coord_0; apply B; lia).
    pose proof (LF 0%N 0%N) as Q1. pose proof (LH 0%N 0%N) as Q2. rewrite !N.lxor_nilpotent in Q1, Q2. now rewrite Q1, Q2.
  - assert (E' : forall y, within k y -> F y = H y) by (apply IH; intros i Hi; apply E; lia). destruct (coord x k) eqn:Q.
    + assert (Bk : within k (N.lxor x (unit2 k))).
      { intros i Hi. rewrite coord_lxor, coord_unit2. destruct (Nat.eqb_spec i k) as [->|NE]; [now rewrite Q|]. rewrite B by lia. auto. }
      replace x with (N.lxor (N.lxor x (unit2 k)) (unit2 k)) by (rewrite N.lxor_assoc, N.lxor_nilpotent; apply N.lxor_0_r). rewrite LF, LH, (E' _ Bk), (E k) by lia. reflexivity.
    + apply E'. intros i Hi. destruct (Nat.eq_dec i k) as [->|NE]; [auto|]. apply B. lia.
Qed.
Lemma image_unit c i : i < length c -> image_of c (unit2 i) = nth i c 0%N.
Proof. intros Hi. unfold image_of. rewrite <- (lincomb_single i c Hi). apply lincomb_ext. intros j _. apply coord_unit2. Qed.

Section Runs.
Variables (dim n : nat) (A : nat -> nat -> Z) (r : nat) (G : tits_group) (comps : list component).
Notation W := (tg_W G).
Hypothesis D : describes n A comps.
Hypothesis RM : n <= rank_max.
Hypothesis MK : make_weyl n comps = Ok W.
Hypothesis T : tits_of dim n A r G.
Notation "u ~ v" := (same n (coxeter A) u v) (at level 70).
Notation X := (X n A comps W).
Notation ell := (ellx n comps W).
Notation ELL := (ELLx n A comps W D RM MK).
Notation CA := (Cart n A comps W D RM MK).
Notation rt := (root2 G).
Notation co := (coroot2 G).
Notation refl := (reflect2 r rt co).
Notation act := (act2 r rt co).
Notation ts := (tsame n (coxeter A) r rt co).
Notation PAIR := (to_pairing dim n A r G T).
Notation proper := (proper_word n r).
Notation D0 := (D0 n A r G comps).
Notation WR := (WR dim n A r G RM T).
Notation rep := (rep n A r G comps).
Notation D0_same := (D0_same dim n A r G comps D RM MK T).

Lemma sigma_D0 s u a : D0 u a -> s < n -> exists b, sigma_mult dim G s a = Ok b /\ D0 (Sig s :: u) b.
Proof. intros H Hs. apply (sigma_run dim n A r G comps D RM MK T s a _ H Hs). Qed.
Lemma sigma_inv_D0 s u a : D0 u a -> s < n -> exists b, sigma_inv_mult dim G s a = Ok b /\ D0 (sig_inv co s ++ u) b.
Proof.
  intros H Hs. destruct (sigma_inv_run dim n A r G comps D RM MK T s a _ H Hs) as (b & E & Hb). exists b. split; [auto|]. unfold TgProofs.D0. now rewrite steps_app.
Qed.
Lemma left_add_D0 t u a : D0 u a -> sized r t -> D0 (Tor (data t) :: u) (left_add t a).
Proof. intros H Bt. apply (left_add_run n A r G comps t a _ H Bt). Qed.
Lemma proper_sigcons s u : s < n -> proper u -> proper (Sig s :: u).
Proof. intros Hs P. apply proper_cons. auto. Qed.
Lemma proper_invcons s u : s < n -> proper u -> proper (sig_inv co s ++ u).
Proof. intros Hs P. apply proper_app. split; [now apply (proper_inv dim n A r G RM T)|auto]. Qed.
Lemma sigma_conjugate_D0 s u a : proper u -> D0 u a -> s < n -> exists b, sigma_conjugate dim G a s = Ok b /\ D0 ([Sig s] ++ u ++ sig_inv co s) b.
Proof.
  intros P H Hs. unfold sigma_conjugate. destruct (sigma_D0 s u a H Hs) as (b & E & Hb). rewrite E. cbn [bind].
  apply (mult_sigma_inv_run dim n A r G comps D RM MK T (Sig s :: u) b s); auto. now apply proper_sigcons.
Qed.
Lemma sigma_inv_conjugate_D0 s u a : proper u -> D0 u a -> s < n -> exists b, sigma_inv_conjugate dim G a s = Ok b /\ D0 (sig_inv co s ++ u ++ [Sig s]) b.
Proof.
  intros P H Hs. unfold sigma_inv_conjugate. destruct (sigma_inv_D0 s u a H Hs) as (b & E & Hb). rewrite E. cbn [bind]. rewrite app_assoc.
  apply (mult_sigma_run dim n A r G comps D RM MK T (sig_inv co s ++ u) b s); auto. now apply proper_invcons.
Qed.
Lemma te_of_torus_D0 t : sized r t -> D0 [Tor (data t)] (te_of_torus G t).
Proof.
  intros Bt. split; [exact Bt|]. split; [cbn; now rewrite N.lxor_0_r|]. cbn [te_of_torus te_w steps fold_right step snd]. apply (X_id n A comps W D RM MK).
Qed.
Lemma te_of_weyl_D0 v w : element W v = Ok w -> over n v -> shortest n (coxeter A) v (length v) -> D0 (map Sig v) (te_of_weyl G w).
Proof.
  intros E O S. apply (shortest_reduced n A G comps D RM MK v O) in S. unfold te_of_weyl, TgProofs.D0. rewrite (to_rank _ _ _ _ _ T). split; [apply sized_0|].
  rewrite steps_sig, (coc_reduced n A r rt co ell ELL v O (proj2 S)), app_nil_r. cbn [fst snd te_t te_w]. split; [|now apply (element_X n A comps W D RM MK)].
  cbn. clear. symmetry. rewrite N.lxor_0_r. induction v as [|s v IH]; [auto|]. now rewrite act_cons, IH, refl_0.
Qed.
Lemma te_right_D0 v w t : element W v = Ok w -> over n v -> shortest n (coxeter A) v (length v) -> sized r t ->
  exists b, te_right dim G w t = Ok b /\ D0 (map Sig v ++ [Tor (data t)]) b.
Proof.
  intros E O S Bt. pose proof (te_of_weyl_D0 v w E O S) as H. destruct (right_add_D0 dim n A r G comps D RM MK T _ _ t (proper_sig n r v O) H Bt) as (b & Eb & Hb).
  destruct H as (B0 & _ & XW). cbn [te_of_weyl te_t te_w] in *. destruct (pull_run dim n A r G comps D RM MK T w _ t XW Bt) as (y & Ey & By & Dy).
  unfold right_add in Eb. cbn [te_of_weyl te_t te_w] in Eb. unfold te_right. rewrite Ey in *. cbn [bind] in *. exists b. split; [|auto]. rewrite <- Eb. f_equal. f_equal.
  destruct y as [dy sy]. unfold bv_add, bv_zero. cbn [data bsize]. rewrite N.lxor_0_l. destruct By as [_ By]. cbn in By. subst sy. now rewrite (to_rank _ _ _ _ _ T).
Qed.
Lemma right_part u a : proper u -> D0 u a -> exists t v, right_torus_part dim G a = Ok t /\ sized r t /\ over n v /\ element W v = Ok (te_w a) /\ shortest n (coxeter A) v (length v) /\
  ts u (map Sig v ++ [Tor (data t)]).
Proof.
  intros P H. destruct (D0_normal dim n A r G comps D RM MK T u a P H) as (v & Ev & [Ov Lv] & Sv & Nu). pose proof H as (B & E & XW).
  destruct (word_run n A G comps D RM MK _ _ XW) as (v' & Ev' & Xv & Sv' & R'). rewrite Ev in Ev'. injection Ev' as <-.
  destruct (push_run dim n A r G comps D RM MK T _ _ _ Xv B) as (t & Et & Bt & Dt). exists t, v. split; [exact Et|]. split; [auto|]. split; [auto|]. split; [now apply (element_is n A comps W D RM MK)|].
  split; [now apply (shortest_reduced n A G comps D RM MK v Ov)|]. eapply ts_trans; [exact Nu|]. apply ts_sym.
  pose proof (ts_push n A r rt co WR v (data t) [] Ov (proj1 Bt)) as Q. rewrite app_nil_r in Q. eapply ts_trans; [exact Q|]. rewrite Dt, <- act_app.
  rewrite (act_same n A r rt co CA PAIR (v ++ rev v) []); [apply ts_refl|]. now apply same_inverse.
Qed.

(** *** the twist *)
Hypothesis K : twist_ok dim n A r G.
Notation fl := (tg_twist G).
Notation f := (fun s => nth s fl 0).
Notation d := (image_of (cols (tg_inv G))).
Lemma F_lt s : s < n -> f s < n.
Proof. intros Hs. destruct (tw_twist _ _ _ _ _ K) as (_ & F & _). now apply F. Qed.
Lemma F_inv s : s < n -> f (f s) = s.
Proof. intros Hs. destruct (tw_twist _ _ _ _ _ K) as (_ & F & _). now apply F. Qed.
Lemma F_A s t : s < n -> t < n -> A (f s) (f t) = A s t.
Proof. destruct (tw_twist _ _ _ _ _ K) as (_ & _ & F). apply F. Qed.
Lemma F_get s : s < n -> vget fl s = Ok (f s).
Proof. intros Hs. destruct (tw_twist _ _ _ _ _ K) as (L & _). apply vget_at. lia. Qed.
Lemma d_within x : within r x -> within r (d x).
Proof. intros _. apply (image_within r r). apply (tw_matrix _ _ _ _ _ K). Qed.
Lemma twisted_part_run x : sized r x -> exists y, twisted_part dim G x = Ok y /\ sized r y /\ data y = d (data x).
Proof.
  intros B. destruct (tw_matrix _ _ _ _ _ K) as [[L M] Rr]. unfold twisted_part. rewrite bm_apply_ok by (unfold ncols; rewrite L; apply (to_dim _ _ _ _ _ T)). eexists. split; [reflexivity|]. split; [|reflexivity].
  split; [|exact Rr]. cbn. apply d_within, B.
Qed.
Lemma twistedConjugate_D0 s u a : proper u -> D0 u a -> s < n -> exists b, twistedConjugate dim G a s = Ok b /\ D0 ([Sig s] ++ u ++ sig_inv co (f s)) b.
Proof.
  intros P H Hs. unfold twistedConjugate. destruct (sigma_D0 s u a H Hs) as (b & E & Hb). rewrite E. cbn [bind]. rewrite F_get by auto. cbn [bind].
  apply (mult_sigma_inv_run dim n A r G comps D RM MK T (Sig s :: u) b (f s)); auto; [now apply proper_sigcons|now apply F_lt].
Qed.
Lemma inverseTwistedConjugate_D0 s u a : proper u -> D0 u a -> s < n -> exists b, inverseTwistedConjugate dim G a s = Ok b /\ D0 (sig_inv co s ++ u ++ [Sig (f s)]) b.
Proof.
  intros P H Hs. unfold inverseTwistedConjugate. destruct (sigma_inv_D0 s u a H Hs) as (b & E & Hb). rewrite E. cbn [bind]. rewrite F_get by auto. cbn [bind]. rewrite app_assoc.
  apply (mult_sigma_run dim n A r G comps D RM MK T (sig_inv co s ++ u) b (f s)); auto; [now apply proper_invcons|now apply F_lt].
Qed.
Lemma involutionMatrix_run v : over n v -> exists M, involutionMatrix dim G v = Ok M /\ is_matrix r r (cols M) /\ rows M = r /\ forall x, within r x -> image_of (cols M) x = d (act (rev v) x).
Proof.
  intros O. unfold involutionMatrix. rewrite (to_rank _ _ _ _ _ T). pose proof (to_dim _ _ _ _ _ T) as HD.
  assert (M : gives (upto r 0 (fun i c => run v0 <- bv_unit dim r i; run v0 <- each_comp v (fun s v0 => treflect dim G v0 s) v0; run v0 <- twisted_part dim G v0; Ok (c ++ [data v0])) [])
     (fun c => length c = r /\ forall i, i < r -> nth i c 0%N = d (act (rev v) (unit2 i))) (fun _ => False)).
  { apply (gives_upto0 (fun k c => length c = k /\ forall i, i < k -> nth i c 0%N = d (act (rev v) (unit2 i)))).
    - split; [auto|]. intros i Hi. lia.
    - intros k c Hk [L N]. pose proof (bv_unit_ok dim r k ltac:(lia)) as U. eapply gives_bind; [apply U|]. intros e (Be & De). apply unit2_of in De.
      assert (Se : sized r e) by (split; [rewrite De; intros i Hi; rewrite coord_unit2; destruct (Nat.eqb_spec i k); [lia|auto]|auto]).
      destruct (reflect_letters dim n A r G RM T v O e Se) as (y & Ey & By & Dy). rewrite Ey. cbn [bind].
      destruct (twisted_part_run y By) as (z & Ez & Bz & Dz). rewrite Ez. cbn [bind gives]. rewrite app_length. cbn [length]. split; [lia|]. intros i Hi. destruct (Nat.eq_dec i k) as [->|NE].
      + rewrite app_nth2, L, Nat.sub_diag by lia. cbn [nth]. now rewrite Dz, Dy, De.
      + rewrite app_nth1 by lia. apply N. lia.
    - auto. }
  apply gives_sure in M. destruct M as (c & Ec & L & N). rewrite Ec. cbn [bind]. eexists. split; [reflexivity|]. cbn [cols rows].
  assert (MT : is_matrix r r c).
  { split; [auto|]. intros x I. destruct (In_nth _ _ 0%N I) as (i & Hi & <-). rewrite N by lia. apply (image_within r r), (tw_matrix _ _ _ _ _ K). }
  split; [auto|]. split; [auto|]. apply lin_eq.
  - apply image_lin.
  - intros x y. now rewrite act_lin, image_lin.
  - intros i Hi. rewrite image_unit by lia. now apply N.
Qed.

(** *** the coset *)
Hypothesis ND : n <= dim.
Variable g : N.
Notation gb := (coord g).
Notation tw := (twist_word co f d gb).
Notation tw_same := (tw_same n A r rt co CA PAIR WR f d gb F_lt F_inv F_A (image_lin _) (image_0 _) d_within (tw_coroot _ _ _ _ _ K) (tw_root _ _ _ _ _ K)).
Notation valid := (valid n A r rt co f d gb).
Notation conj := (conj co f d gb).
Lemma test_run s : s < n -> test dim g s = Ok (gb s).
Proof. intros Hs. apply test_ok. lia. Qed.
Lemma twist_letters v : over n v -> forall u a, proper u -> D0 u a ->
  exists b, each_comp v (fun i result => run s <- vget fl i; run result <- mult_sigma dim G result s; run b <- test dim g s; if b : bool then run m <- m_alpha G s; right_add dim G result m else Ok result) a = Ok b /\
    D0 (u ++ tw (map Sig v)) b.
Proof.
  induction v as [|s v IH]; intros O u a P H.
  - exists a. split; [auto|]. cbn [map]. unfold twist_word. cbn [flat_map]. now rewrite app_nil_r.
  - apply over_cons in O. destruct O as [Hs O]. pose proof (F_lt s Hs) as Hf.
    enough (exists a', (run t <- vget fl s; run result <- mult_sigma dim G a t; run b <- test dim g t; if b : bool then run m <- m_alpha G t; right_add dim G result m else Ok result) = Ok a' /\ D0 (u ++ tw [Sig s]) a') as (a' & E & Ha').
    { assert (P' : proper (u ++ tw [Sig s])). { apply proper_app. split; [auto|]. apply (tw_proper n r co WR f d gb F_lt d_within). intros x [<-|[]]. exact Hs. }
      destruct (IH O _ a' P' Ha') as (b & Eb & Hb). exists b. split; [unfold each_comp in *; cbn [fold_left bind]; now rewrite E|]. cbn [map]. change (Sig s :: map Sig v) with ([Sig s] ++ map Sig v). now rewrite tw_app, app_assoc. }
    rewrite F_get by auto. cbn [bind]. destruct (mult_sigma_run dim n A r G comps D RM MK T u a (f s) P H Hf) as (b & Eb & Hb). rewrite Eb. cbn [bind]. rewrite test_run by auto. cbn [bind].
    unfold twist_word. cbn [flat_map twist_letter]. destruct (gb (f s)) eqn:Q; rewrite ?app_nil_r.
    + unfold m_alpha. destruct (coroot_at dim n A r G RM T (f s) Hf) as (m & Em & Bm & Dm). rewrite Em. cbn [bind].
      destruct (right_add_D0 dim n A r G comps D RM MK T _ b m (proper_snoc n r u (f s) P Hf) Hb Bm) as (c & Ec & Hc). exists c. split; [auto|]. rewrite Dm, <- app_assoc in Hc. exact Hc.
    + exists b. auto.
Qed.
Lemma te_twisted_D0 u a : proper u -> D0 u a -> exists b, te_twisted dim G g a = Ok b /\ D0 (tw u) b.
Proof.
  intros P H. destruct (D0_normal dim n A r G comps D RM MK T u a P H) as (v & Ev & [Ov Lv] & Sv & Nu). pose proof H as (B & _ & _). unfold te_twisted.
  destruct (twisted_part_run _ B) as (t & Et & Bt & Dt). rewrite Et. cbn [bind]. rewrite Ev. cbn [bind]. assert (PT : proper [Tor (data t)]) by (intros x [<-|[]]; apply Bt).
  destruct (twist_letters v Ov _ _ PT (te_of_torus_D0 t Bt)) as (b & Eb & Hb). exists b. split; [exact Eb|]. apply tw_same in Nu. apply ts_sym in Nu. rewrite Dt in Hb. apply (D0_same _ _ b Nu); [|exact Hb].
  apply (tw_proper n r co WR f d gb F_lt d_within). apply proper_cons. split; [apply B|now apply proper_sig].
Qed.
Lemma D0_unique u a b : D0 u a -> D0 u b -> a = b.
Proof. apply (rep_unique n A r G comps D RM MK). Qed.
Lemma te_eq_ok a b : sized r (te_t a) -> sized r (te_t b) -> (te_eq a b = true <-> a = b).
Proof.
  intros Ba Bb. unfold te_eq. rewrite andb_true_iff, same_elt_ok, N.eqb_eq. split; [|intros ->; auto]. intros [E1 E2]. destruct a, b. cbn in *. subst. f_equal. now apply (bv_eq r).
Qed.
Lemma is_valid_run u a : proper u -> D0 u a -> exists b, is_valid dim G g a = Ok b /\ (b = true <-> valid u).
Proof.
  intros P H. unfold is_valid. destruct (te_twisted_D0 u a P H) as (b & Eb & Hb). rewrite Eb. cbn [bind].
  assert (P2 : proper (tw u)) by (now apply (tw_proper n r co WR f d gb F_lt d_within)).
  destruct (prod_run dim n A r G comps D RM MK T u (tw u) a b P P2 H Hb) as (c & Ec & Hc). rewrite Ec. cbn [bind]. eexists. split; [reflexivity|].
  pose proof (D0_id dim n A r G comps D RM MK T) as H1. assert (P3 : proper (u ++ tw u)) by (apply proper_app; auto). assert (P0 : proper []) by (intros x []).
  rewrite te_eq_ok; [|apply Hc|apply H1]. split.
  - intros ->. apply (D0_eq dim n A r G comps D RM MK T _ _ _ P3 P0 Hc H1).
  - intros V. apply (D0_unique [] c); [|auto]. apply (D0_same _ _ c V P3 Hc).
Qed.
Lemma simple_grading_run a s : s < n -> simple_grading dim G g a s = Ok (xorb (gb s) (scalar r (rt s) (data (te_t a)))).
Proof.
  intros Hs. unfold simple_grading. rewrite test_run by auto. cbn [bind]. unfold dual_m_alpha. destruct (root_at dim n A r G RM T s Hs) as (x & E & B & Dx). rewrite E. cbn [bind].
  rewrite (dot_ok dim r x (te_t a) (to_dim _ _ _ _ _ T) (proj1 B)), Dx. reflexivity.
Qed.
Lemma compact_letters a l : (forall s, In s l -> s < n) -> forall acc, exists res, each l (fun s r => run b <- simple_grading dim G g a s; assign dim r s (negb b)) acc = Ok res /\
  forall s, coord res s = if in_dec Nat.eq_dec s l then negb (noncompact r G g s a) else coord acc s.
Proof.
  induction l as [|x l IH]; intros O acc; [exists acc; auto|]. assert (Hx : x < n) by (apply O; now left). cbn [each]. rewrite simple_grading_run by auto. cbn [bind].
  destruct (assign_ok dim acc x (negb (noncompact r G g x a))) as (acc' & E & C); [lia|]. unfold noncompact in E at 1. rewrite E. cbn [bind].
  destruct (IH (fun s I => O s (or_intror I)) acc') as (res & Er & Cr). exists res. split; [exact Er|]. intros s. rewrite Cr. destruct (in_dec Nat.eq_dec s l) as [I|I], (in_dec Nat.eq_dec s (x :: l)) as [J|J]; auto.
  - exfalso. apply J. now right.
  - destruct J as [<-|J]; [|contradiction]. now rewrite C, Nat.eqb_refl.
  - rewrite C. destruct (Nat.eqb_spec s x) as [->|NE]; [exfalso; apply J; now left|auto].
Qed.
Lemma compact_run a imag : within n imag -> exists res, compact_simples dim G g a imag = Ok res /\ forall s, coord res s = coord imag s && negb (noncompact r G g s a).
Proof.
  intros B. unfold compact_simples. destruct (compact_letters a (positions dim imag)) with (acc := 0%N) as (res & E & C).
  - intros s I. apply in_positions in I. now apply (within_lt n imag).
  - exists res. split; [exact E|]. intros s. rewrite C, coord_0. destruct (in_dec Nat.eq_dec s (positions dim imag)) as [I|I].
    + apply in_positions in I. now rewrite (proj2 I).
    + destruct (coord imag s) eqn:Q; [|auto]. exfalso. apply I, in_positions. split; [|auto]. pose proof (within_lt n imag s B Q). lia.
Qed.
Hypothesis g_f : forall s, s < n -> gb (f s) = gb s.
Lemma strict_conjugate_D0 s u a : proper u -> D0 u a -> s < n -> exists b, strict_conjugate dim G g a s = Ok b /\ D0 (conj [Sig s] u) b.
Proof.
  intros P H Hs. pose proof (F_lt s Hs) as Hf. destruct (twistedConjugate_D0 s u a P H Hs) as (b & E & Hb). unfold strict_conjugate. rewrite E. cbn [bind]. rewrite test_run by auto. cbn [bind].
  unfold TgCoset.conj. cbn [inverse_word]. rewrite app_nil_l. unfold twist_word, sig_inv. cbn [flat_map twist_letter app]. rewrite (tw_coroot _ _ _ _ _ K) by auto. rewrite g_f by auto.
  assert (PP : proper ([Sig s] ++ u ++ sig_inv co (f s))). { apply proper_sigcons; [auto|]. apply proper_app. split; [auto|now apply (proper_inv dim n A r G RM T)]. }
  destruct (gb s).
  - rewrite F_get by auto. cbn [bind]. unfold m_alpha. destruct (coroot_at dim n A r G RM T (f s) Hf) as (m & Em & Bm & Dm). rewrite Em. cbn [bind].
    destruct (right_add_D0 dim n A r G comps D RM MK T _ b m PP Hb Bm) as (c & Ec & Hc). exists c. split; [auto|]. rewrite Dm in Hc. rewrite <- !app_assoc in Hc. exact Hc.
  - exists b. split; [auto|]. exact Hb.
Qed.
Notation cross := (cross_by G g).
Lemma based_D0 s u a : proper u -> D0 u a -> s < n -> exists b, basedTwistedConjugate dim G g a s = Ok b /\ D0 (conj (cross s) u) b.
Proof.
  intros P H Hs. pose proof (F_lt s Hs) as Hf. destruct (twistedConjugate_D0 s u a P H Hs) as (b & E & Hb). unfold basedTwistedConjugate. rewrite E. cbn [bind]. rewrite test_run by auto. cbn [bind].
  unfold TgCoset.conj, cross_by. assert (PP : proper ([Sig s] ++ u ++ sig_inv co (f s))). { apply proper_sigcons; [auto|]. apply proper_app. split; [auto|now apply (proper_inv dim n A r G RM T)]. }
  destruct (gb s) eqn:Q.
  - unfold m_alpha. destruct (coroot_at dim n A r G RM T s Hs) as (m & Em & Bm & Dm). rewrite Em. cbn [bind]. eexists. split; [reflexivity|]. pose proof (left_add_D0 m _ b Hb Bm) as Hc. rewrite Dm in Hc.
    eapply D0_same; [| |exact Hc]; [|apply proper_cons; split; [now apply WR|auto]]. match goal with |- ts _ ?z => change (ts (sig_inv co s ++ u ++ sig_inv co (f s)) z) end. apply ts_app_l, ts_app_l.
    unfold sig_inv at 2. cbn [inverse_word app]. change (ts (sig_inv co (f s)) (tw (sig_inv co s ++ [Tor (co s)]))). rewrite tw_app.
    unfold sig_inv at 2. unfold twist_word. cbn [flat_map twist_letter app]. rewrite (tw_coroot _ _ _ _ _ K) by auto. rewrite g_f, Q by auto. cbn [app].
    pose proof (WR (f s) Hf) as Bf. apply ts_sym. eapply ts_trans; [apply ts_cons, ts_cons, (inv_tor n A r rt co); auto|]. apply ts_refl.
  - exists b. split; [auto|]. cbn [inverse_word]. rewrite app_nil_l. unfold twist_word, sig_inv. cbn [flat_map twist_letter app]. rewrite (tw_coroot _ _ _ _ _ K) by auto. rewrite g_f, Q by auto. exact Hb.
Qed.
Lemma cross_proper s : s < n -> proper (cross s).
Proof. intros Hs. unfold cross_by. destruct (gb s); [now apply (proper_inv dim n A r G RM T)|]. intros x [<-|[]]. exact Hs. Qed.
Lemma conj_proper v u : proper v -> proper u -> proper (conj v u).
Proof.
  intros P Q. unfold TgCoset.conj. apply proper_app. split; [auto|]. apply proper_app. split; [auto|]. apply (tw_proper n r co WR f d gb F_lt d_within). now apply (inv_proper n r co WR).
Qed.
Lemma based_word w : over n w -> forall u a, proper u -> D0 u a -> exists b, each_comp w (fun s a => basedTwistedConjugate dim G g a s) a = Ok b /\ D0 (conj (flat_map cross (rev w)) u) b.
Proof.
  induction w as [|s w IH]; intros O u a P H.
  - exists a. split; [auto|]. cbn [rev flat_map]. unfold TgCoset.conj, twist_word. cbn. now rewrite app_nil_r.
  - apply over_cons in O. destruct O as [Hs O]. destruct (based_D0 s u a P H Hs) as (b & E & Hb). destruct (IH O _ b (conj_proper _ _ (cross_proper s Hs) P) Hb) as (c & Ec & Hc).
    exists c. split; [unfold each_comp in *; cbn [fold_left bind]; now rewrite E|]. cbn [rev]. rewrite flat_map_app. cbn [flat_map]. rewrite app_nil_r, <- conj_app. exact Hc.
Qed.
Notation conj_valid := (conj_valid n A r rt co CA PAIR WR f d gb F_lt F_inv F_A (image_lin _) (image_0 _) d_within (tw_square _ _ _ _ _ K) (tw_coroot _ _ _ _ _ K) (tw_root _ _ _ _ _ K) g_f).
Lemma conj_is_valid v u a b : proper v -> proper u -> D0 u a -> D0 (conj v u) b -> is_valid dim G g a = Ok true -> is_valid dim G g b = Ok true.
Proof.
  intros Pv Pu Ha Hb V. destruct (is_valid_run u a Pu Ha) as (x & Ex & Qx). rewrite V in Ex. injection Ex as <-.
  destruct (is_valid_run _ b (conj_proper v u Pv Pu) Hb) as (y & Ey & Qy). rewrite Ey. f_equal. apply Qy. apply conj_valid; [auto|]. now apply Qx.
Qed.

(** *** imaginary generators *)
Lemma imaginary_form u a s : proper u -> D0 u a -> s < n -> (exists v, over n v /\ element W v = Ok (te_w a) /\ imaginary_for n A fl s v) ->
  exists v, reduced_word n ell v /\ ell (s :: v) = S (ell v) /\ (s :: v) ~ (v ++ [f s]) /\ ts u (Tor (data (te_t a)) :: map Sig v) /\ X (te_w a) v.
Proof.
  intros P H Hs (v' & Ov' & Ev' & C' & L'). destruct (D0_normal dim n A r G comps D RM MK T u a P H) as (v & Ev & R & Sv & Nu). pose proof R as [Ov Lv].
  pose proof (proj1 (element_X n A comps W D RM MK (te_w a) v' Ov') Ev') as Xv'. destruct (word_run n A G comps D RM MK _ _ Xv') as (v1 & E1 & X1 & S1 & _). rewrite Ev in E1. injection E1 as <-.
  exists v. split; [auto|]. assert (O1 : over n (s :: v)) by (apply over_cons; auto). split.
  - pose proof (L' _ (ELL v' Ov')) as Q. rewrite (ell_same n _ ell ELL v v' Ov S1). rewrite (ell_same n _ ell ELL (s :: v) (s :: v') O1 (same_cons n _ s _ _ S1)).
    assert (O2 : over n (s :: v')) by (apply over_cons; auto). pose proof (ELL _ O2) as Q2. destruct Q as [(x & Ox & Sx & Lx) Mx], Q2 as [(y & Oy & Sy & Ly) My]. specialize (Mx y Oy Sy). specialize (My x Ox Sx). lia.
  - split; [|auto]. apply (same_trans _ _ _ (s :: v')); [now apply same_cons|]. apply (same_trans _ _ _ (v' ++ [f s])); [exact C'|]. apply same_snoc. now apply same_sym.
Qed.
Notation nc := (noncompact r G g).
Lemma tor_D0 u a x : D0 u a -> within r x -> D0 (Tor x :: u) (mk_te (mk_bv (N.lxor (data (te_t a)) x) r) (te_w a)).
Proof. intros H Bx. pose proof (left_add_D0 (mk_bv x r) u a H (Logic.conj Bx eq_refl)) as Q. cbn [data] in Q. destruct H as ([_ E] & _). unfold left_add, bv_add in Q. rewrite E in Q. exact Q. Qed.
Lemma imaginary_run u a s : proper u -> D0 u a -> s < n -> (exists v, over n v /\ element W v = Ok (te_w a) /\ imaginary_for n A fl s v) ->
  let b := mk_te (mk_bv (N.lxor (data (te_t a)) (if nc s a then co s else 0%N)) r) (te_w a) in
  strict_conjugate dim G g a s = Ok b /\ basedTwistedConjugate dim G g a s = Ok b.
Proof.
  intros P H Hs IM b. destruct (imaginary_form u a s P H Hs IM) as (v & R & R1 & C & Nu & _). pose proof (proj1 (proj1 H)) as Bt.
  pose proof (imaginary_conj n A r rt co CA PAIR WR ell ELL f d gb F_lt F_inv F_A (image_lin _) (image_0 _) d_within (tw_coroot _ _ _ _ _ K) (tw_root _ _ _ _ _ K) g_f s v Hs R R1 C _ Bt) as E1.
  pose proof (imaginary_conj_inv n A r rt co CA PAIR WR ell ELL f d gb F_lt F_inv F_A (image_lin _) (image_0 _) d_within (tw_coroot _ _ _ _ _ K) (tw_root _ _ _ _ _ K) g_f s v Hs R R1 C _ Bt) as E2.
  cbv beta in E1, E2. fold (nc s a) in E1, E2. set (x := if nc s a then co s else 0%N) in *.
  assert (Bx : within r x) by (unfold x; destruct (nc s a); [now apply WR|apply within_0]).
  assert (Hb : D0 (Tor x :: u) b) by (now apply tor_D0).
  assert (FIN : forall w, ts (conj w (Tor (data (te_t a)) :: map Sig v)) (Tor x :: Tor (data (te_t a)) :: map Sig v) -> ts (conj w u) (Tor x :: u)).
  { intros w E. eapply ts_trans; [apply conj_same, Nu|]. eapply ts_trans; [exact E|]. apply ts_cons, ts_sym, Nu. }
  split.
  - destruct (strict_conjugate_D0 s u a P H Hs) as (c & Ec & Hc). rewrite Ec. f_equal. apply (D0_unique (Tor x :: u)); [|auto]. apply (D0_same _ _ c (FIN _ E1)); [|auto]. apply conj_proper; [|auto]. intros y [<-|[]]. exact Hs.
  - destruct (based_D0 s u a P H Hs) as (c & Ec & Hc). rewrite Ec. f_equal. apply (D0_unique (Tor x :: u)); [|auto]. apply (D0_same (conj (cross s) u) _ c); [|apply conj_proper; [now apply cross_proper|auto]|auto].
    unfold cross_by. destruct (gb s); apply FIN; auto.
Qed.
Lemma Cayley_square u a s : proper u -> D0 u a -> s < n -> (exists v, over n v /\ element W v = Ok (te_w a) /\ imaginary_for n A fl s v) ->
  ts ((Sig s :: u) ++ tw (Sig s :: u)) (Tor (if nc s a then 0%N else co s) :: u ++ tw u).
Proof.
  intros P H Hs IM. destruct (imaginary_form u a s P H Hs IM) as (v & R & R1 & C & Nu & _). pose proof (proj1 (proj1 H)) as Bt.
  pose proof (imaginary_square n A r rt co CA PAIR WR ell ELL f d gb F_lt (image_0 _) g_f s v Hs R R1 C _ Bt) as E.
  cbv beta in E. fold (nc s a) in E. pose proof (ts_cons n A r rt co (Sig s) _ _ Nu) as Ns.
  eapply ts_trans; [apply ts_app; [exact Ns|apply tw_same, Ns]|]. eapply ts_trans; [exact E|]. apply ts_cons, ts_sym. apply ts_app; [exact Nu|apply tw_same, Nu].
Qed.
Lemma Cayley_valid u a b s va vb : proper u -> D0 u a -> s < n -> (exists v, over n v /\ element W v = Ok (te_w a) /\ imaginary_for n A fl s v) ->
  Cayley_transform dim G a s = Ok b -> is_valid dim G g a = Ok va -> is_valid dim G g b = Ok vb ->
  if nc s a then vb = va else co s <> 0%N -> va = true -> vb = false.
Proof.
  intros P H Hs IM EC Va Vb. pose proof (Cayley_square u a s P H Hs IM) as SQ. unfold Cayley_transform in EC. destruct (sigma_D0 s u a H Hs) as (b' & Eb & Hb). rewrite EC in Eb. injection Eb as <-.
  assert (PS : proper (Sig s :: u)) by (now apply proper_sigcons).
  destruct (is_valid_run u a P H) as (x & Ex & Qx). rewrite Va in Ex. injection Ex as <-. destruct (is_valid_run _ b PS Hb) as (y & Ey & Qy). rewrite Vb in Ey. injection Ey as <-. unfold TgCoset.valid in Qx, Qy.
  destruct (nc s a).
  - apply eq_true_iff_eq. rewrite Qx, Qy. split; intros Q; (eapply ts_trans; [|exact Q]); [|eapply ts_trans; [exact SQ|]; apply ts_zero].
    apply ts_sym. eapply ts_trans; [exact SQ|]. apply ts_zero.
  - intros NZ ->. destruct vb; [|auto]. exfalso. apply NZ. apply (tor_unique n A r rt co CA PAIR ell ELL _ _ []); [|apply over_nil]. cbn [map]. apply ts_sym.
    eapply ts_trans; [apply ts_one|]. eapply ts_trans; [apply ts_sym, (proj1 Qy eq_refl)|]. eapply ts_trans; [exact SQ|]. apply ts_cons. now apply Qx.
Qed.
Lemma sigma_back s u a : proper u -> D0 u a -> s < n -> exists b, sigma_mult dim G s a = Ok b /\ sigma_inv_mult dim G s b = Ok a.
Proof.
  intros P H Hs. destruct (sigma_D0 s u a H Hs) as (b & E & Hb). exists b. split; [auto|]. destruct (sigma_inv_D0 s _ b Hb Hs) as (c & Ec & Hc). rewrite Ec. f_equal. apply (D0_unique u); [|auto].
  apply (D0_same (sig_inv co s ++ Sig s :: u) u c); [|apply proper_invcons; [auto|now apply proper_sigcons]|auto].
  apply (ts_app_r n A r rt co u (sig_inv co s ++ [Sig s]) []). now apply (inv_sig_l n A r rt co WR).
Qed.
Lemma adjust_run ms s u a : D0 u a -> s < n -> Forall (sized r) ms ->
  exists b, adjust dim G ms s a = Ok b /\ ((b = a /\ forall v, In v ms -> scalar r (rt s) (data v) = false) \/
    exists v, In v ms /\ scalar r (rt s) (data v) = true /\ b = left_add v a /\ D0 (Tor (data v) :: u) b).
Proof.
  intros H Hs. induction ms as [|v ms IH]; intros F; [exists a; split; [auto|]; left; split; [auto|intros v []]|]. apply Forall_cons_iff in F. destruct F as [Bv F].
  cbn [adjust]. unfold dual_m_alpha. destruct (root_at dim n A r G RM T s Hs) as (x & E & Bx & Dx). rewrite E. cbn [bind]. rewrite (dot_ok dim r x v (to_dim _ _ _ _ _ T) (proj1 Bx)), Dx.
  destruct (scalar r (rt s) (data v)) eqn:Q.
  - eexists. split; [reflexivity|]. right. exists v. split; [now left|]. split; [auto|]. split; [auto|]. now apply left_add_D0.
  - destruct (IH F) as (b & Eb & C). exists b. split; [auto|]. destruct C as [[-> A0]|(w & I & C)]; [left; split; [auto|]; intros w [<-|I]; auto|right; exists w; split; [now right|auto]].
Qed.
Lemma inverse_Cayley_run ms s u a : D0 u a -> s < n -> Forall (sized r) ms ->
  exists b c, sigma_inv_mult dim G s a = Ok b /\ D0 (sig_inv co s ++ u) b /\ inverse_Cayley_transform dim G g a s ms = Ok c /\
    ((c = b /\ (nc s b = true \/ forall v, In v ms -> scalar r (rt s) (data v) = false)) \/
     (nc s b = false /\ nc s c = true /\ exists v, In v ms /\ scalar r (rt s) (data v) = true /\ c = left_add v b)).
Proof.
  intros H Hs F. destruct (sigma_inv_D0 s u a H Hs) as (b & E & Hb). unfold inverse_Cayley_transform. rewrite E. cbn [bind]. rewrite simple_grading_run by auto. cbn [bind]. fold (nc s b).
  destruct (nc s b) eqn:Q.
  - exists b, b. split; [auto|]. split; [auto|]. split; [auto|]. left. auto.
  - destruct (adjust_run ms s _ b Hb Hs F) as (c & Ec & C). exists b, c. split; [auto|]. split; [auto|]. split; [auto|]. destruct C as [[-> A0]|(v & I & Sv & -> & _)]; [left; auto|]. right. split; [auto|].
    split; [|exists v; auto]. unfold noncompact in *. cbn [left_add te_t bv_add data]. rewrite scalar_xor_r, Sv, xorb_true_r. destruct (gb s), (scalar r (rt s) (data (te_t b))); auto; discriminate.
Qed.
End Runs.
