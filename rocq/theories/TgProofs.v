(** Tits groups: the operations of the program *)

From Coq Require Import List Arith NArith ZArith Lia Bool.
From Verif Require Import VecModel VecProofs RunModel RunProofs MatSpec MatLin F2Model F2Spec F2Basics F2Proofs F2Solve F2Ops WeylModel WeylSpec TwistSpec TwistModel
  WeylTable WeylCheck WeylExchange WeylGroup WeylOps WeylMore WeylMake WeylExt WeylSign TwistProofs TgModel TgSpec TgSem TgMath.
Import ListNotations.
Open Scope nat_scope.

Section Tits.
Variables (dim n : nat) (A : nat -> nat -> Z) (r : nat) (G : tits_group) (comps : list component).
Notation W := (tg_W G).
Hypothesis D : describes n A comps.
Hypothesis RM : n <= rank_max.
Hypothesis MK : make_weyl n comps = Ok W.
Hypothesis T : tits_of dim n A r G.
Notation "u ~ v" := (same n (coxeter A) u v) (at level 70).
Notation X := (X n A comps W).
Notation ell := (ellx n comps W).
Notation ELL := (ELLx n A comps W D RM MK).
Notation CA := (Cart n A comps W D RM MK).
Notation rt := (root2 G).
Notation co := (coroot2 G).
Notation refl := (reflect2 r rt co).
Notation act := (act2 r rt co).
Notation ts := (tsame n (coxeter A) r rt co).
Notation drop := (drop ell).
Notation step := (step r rt co ell).
Notation steps := (steps r rt co ell).
Notation alike := (alike n A).
Notation coc := (coc r rt co ell).
Notation PAIR := (to_pairing dim n A r G T).

Lemma root_at s : s < n -> exists x, vget (tg_root G) s = Ok x /\ sized r x /\ data x = rt s.
Proof.
  intros Hs. destruct (to_roots _ _ _ _ _ T) as [L F]. exists (nth s (tg_root G) (bv_zero 0)). split; [apply vget_at; lia|]. split; [|reflexivity].
  rewrite Forall_forall in F. apply F, nth_In. lia.
Qed.
Lemma coroot_at s : s < n -> exists x, vget (tg_coroot G) s = Ok x /\ sized r x /\ data x = co s.
Proof.
  intros Hs. destruct (to_coroots _ _ _ _ _ T) as [L F]. exists (nth s (tg_coroot G) (bv_zero 0)). split; [apply vget_at; lia|]. split; [|reflexivity].
  rewrite Forall_forall in F. apply F, nth_In. lia.
Qed.
Lemma WR s : s < n -> within r (co s).
Proof. intros Hs. destruct (coroot_at s Hs) as (x & _ & [B _] & <-). exact B. Qed.
Lemma treflect_run x s : sized r x -> s < n -> exists y, treflect dim G x s = Ok y /\ sized r y /\ data y = refl s (data x).
Proof.
  intros B Hs. destruct (root_at s Hs) as (a & Ea & Ba & Da). destruct (coroot_at s Hs) as (c & Ec & Bc & Dc). unfold treflect. rewrite Ea. cbn [bind].
  rewrite (dot_ok dim r a x (to_dim _ _ _ _ _ T) (proj1 Ba)), Da. unfold reflect2. destruct (scalar r (rt s) (data x)).
  - rewrite Ec. cbn [bind]. eexists. split; [reflexivity|]. split; [now apply sized_add|]. cbn. now rewrite Dc.
  - exists x. auto.
Qed.
Lemma reflect_letters u : over n u -> forall x, sized r x -> exists y, each_comp u (fun s x => treflect dim G x s) x = Ok y /\ sized r y /\ data y = act (rev u) (data x).
Proof.
  induction u as [|s u IH]; intros O x B; [exists x; auto|]. apply over_cons in O. destruct O as [Hs O]. destruct (treflect_run x s B Hs) as (y & E & By & Dy).
  destruct (IH O y By) as (z & Ez & Bz & Dz). exists z. split; [|split; [auto|]].
  - unfold each_comp in *. cbn [fold_left bind]. now rewrite E.
  - rewrite Dz, Dy. cbn [rev]. now rewrite act_app.
Qed.
Lemma word_run w u : X w u -> exists v, word W w = Ok v /\ X w v /\ v ~ u /\ reduced_word n ell v.
Proof.
  intros H. destruct (word_X n A comps W D RM MK w (X_valid n A comps W w u H)) as (v & E & Xv & L). exists v. split; [auto|]. split; [auto|].
  split; [now apply (X_eq n A comps W D RM MK w)|]. split; [apply Xv|]. rewrite L. symmetry. now apply (ell_X n A comps W D RM MK).
Qed.
Lemma act_inv u v : over n u -> u ~ v -> forall x, act u x = act v x.
Proof. intros _ E x. now apply (act_same n A r rt co CA PAIR). Qed.
Lemma pull_run w u x : X w u -> sized r x -> exists y, pull_across dim G w x = Ok y /\ sized r y /\ data y = act u (data x).
Proof.
  intros H B. destruct (word_run w u H) as (v & E & Xv & S & _). unfold pull_across. rewrite E. cbn [bind].
  destruct (reflect_letters (rev v) (over_rev n v (proj1 Xv)) x B) as (y & Ey & By & Dy). exists y. split; [auto|]. split; [auto|]. rewrite Dy, rev_involutive. apply act_inv; auto. apply Xv.
Qed.
Lemma push_run w u x : X w u -> sized r x -> exists y, push_across dim G x w = Ok y /\ sized r y /\ data y = act (rev u) (data x).
Proof.
  intros H B. destruct (word_run w u H) as (v & E & Xv & S & _). unfold push_across. rewrite E. cbn [bind].
  destruct (reflect_letters v (proj1 Xv) x B) as (y & Ey & By & Dy). exists y. split; [auto|]. split; [auto|]. rewrite Dy. apply act_inv; [apply over_rev, Xv|].
  apply same_rev; [apply cox_symm|auto].
Qed.

(** *** values and pairs *)
Definition rep (a : telt) (p : N * list nat) : Prop := sized r (te_t a) /\ data (te_t a) = fst p /\ X (te_w a) (snd p).
Lemma rep_alike a p q : rep a p -> alike p q -> rep a q.
Proof. intros (B & E & H) [E1 E2]. split; [auto|]. split; [congruence|]. now apply (X_same n A comps W D RM MK _ (snd p)). Qed.
Lemma bv_eq x y : sized r x -> sized r y -> data x = data y -> x = y.
Proof. intros [_ A1] [_ A2] E. destruct x, y. cbn in *. congruence. Qed.
Lemma rep_unique a b p : rep a p -> rep b p -> a = b.
Proof.
  intros (B & E & H) (B' & E' & H'). destruct a as [t w], b as [t' w']. cbn in *. f_equal; [apply bv_eq; auto; congruence|]. now apply (X_unique n A comps W D RM MK _ _ (snd p)).
Qed.
Lemma rep_over a p : rep a p -> over n (snd p).
Proof. intros (_ & _ & O & _). auto. Qed.
Lemma sized_if t s (b : bool) : sized r t -> s < n ->
  exists m, vget (tg_coroot G) s = Ok m /\ (forall w : list nat, te_t (left_add m (mk_te t w)) = bv_add t m) /\ sized r (bv_add t m) /\ data (bv_add t m) = N.lxor (data t) (co s).
Proof. intros B Hs. destruct (coroot_at s Hs) as (m & E & Bm & Dm). exists m. split; [auto|]. split; [auto|]. split; [now apply sized_add|]. cbn. now rewrite Dm. Qed.
Lemma drop_change w u s : X w u -> s < n -> exists w' c, left_mult_gen W s w = Ok (w', c) /\ X w' (s :: u) /\ (c <? 0)%Z = drop s u /\ (0 <? c)%Z = negb (drop s u).
Proof.
  intros H Hs. pose proof (lm_X n A comps W D RM MK w u s H Hs) as M. apply gives_sure in M. destruct M as ([w' c] & E & Xw & Ec). exists w', c. split; [auto|]. split; [auto|].
  unfold TgMath.drop. destruct (ell_cons n (coxeter A) ell ELL s u Hs (proj1 H)) as [L|L]; destruct (Nat.ltb_spec (ell (s :: u)) (ell u)); cbn [negb];
  destruct (Z.ltb_spec c 0), (Z.ltb_spec 0 c); split; auto; lia.
Qed.
Lemma sigma_run s a p : rep a p -> s < n -> exists b, sigma_mult dim G s a = Ok b /\ rep b (step (Sig s) p).
Proof.
  intros (B & E & H) Hs. destruct (treflect_run (te_t a) s B Hs) as (t & Et & Bt & Dt). destruct (drop_change _ _ s H Hs) as (w & c & Ew & Xw & C1 & C2).
  unfold sigma_mult. rewrite Et. cbn [bind]. rewrite Ew. cbn [bind]. rewrite C1. cbn [TgMath.step]. rewrite E in Dt. destruct (drop s (snd p)).
  - destruct (sized_if t s true Bt Hs) as (m & Em & _ & Bm & Dm). rewrite Em. cbn [bind]. eexists. split; [reflexivity|]. split; [exact Bm|]. split; [|exact Xw]. cbn [left_add te_t fst]. now rewrite Dm, Dt.
  - eexists. split; [reflexivity|]. split; [exact Bt|]. split; [|exact Xw]. cbn. now rewrite Dt, N.lxor_0_r.
Qed.
Lemma sigma_inv_run s a p : rep a p -> s < n -> exists b, sigma_inv_mult dim G s a = Ok b /\ rep b (steps (sig_inv co s) p).
Proof.
  intros (B & E & H) Hs. destruct (treflect_run (te_t a) s B Hs) as (t & Et & Bt & Dt). destruct (drop_change _ _ s H Hs) as (w & c & Ew & Xw & C1 & C2).
  unfold sigma_inv_mult. rewrite Et. cbn [bind]. rewrite Ew. cbn [bind]. rewrite C2. cbn [TgMath.steps fold_right TgMath.step sig_inv fst snd]. rewrite E in Dt. destruct (drop s (snd p)) eqn:Q; cbn [negb].
  - eexists. split; [reflexivity|]. split; [exact Bt|]. split; [|exact Xw]. cbn. rewrite Dt. now rewrite (N.lxor_comm (refl s (fst p))), lxor_cancel.
  - destruct (sized_if t s true Bt Hs) as (m & Em & _ & Bm & Dm). rewrite Em. cbn [bind]. eexists. split; [reflexivity|]. split; [exact Bm|]. split; [|exact Xw]. cbn [left_add te_t fst]. now rewrite Dm, Dt, N.lxor_0_r, N.lxor_comm.
Qed.
Lemma left_add_run t a p : rep a p -> sized r t -> rep (left_add t a) (step (Tor (data t)) p).
Proof. intros (B & E & H) Bt. split; [now apply sized_add|]. split; [|exact H]. cbn. rewrite E. apply N.lxor_comm. Qed.
Lemma right_add_run t a p : rep a p -> sized r t -> exists b, right_add dim G a t = Ok b /\ rep b (N.lxor (fst p) (act (snd p) (data t)), snd p).
Proof.
  intros (B & E & H) Bt. destruct (pull_run _ _ t H Bt) as (y & Ey & By & Dy). unfold right_add. rewrite Ey. cbn [bind]. eexists. split; [reflexivity|].
  split; [now apply sized_add|]. split; [|exact H]. cbn. now rewrite Dy, E.
Qed.
Lemma sigma_letters v : over n v -> forall a p, rep a p -> exists b, each_comp (rev v) (sigma_mult dim G) a = Ok b /\ rep b (steps (map Sig v) p).
Proof.
  induction v as [|s v IH]; intros O a p H; [exists a; auto|]. apply over_cons in O. destruct O as [Hs O]. destruct (IH O a p H) as (b & E & Hb).
  destruct (sigma_run s b _ Hb Hs) as (c & Ec & Hc). exists c. split; [|exact Hc]. unfold each_comp in *. cbn [rev]. rewrite fold_left_app, E. cbn [fold_left bind]. exact Ec.
Qed.

(** *** values of words *)
Definition D0 (u : list letter) (a : telt) : Prop := rep a (steps u (0%N, [])).
Notation proper := (proper_word n r).
Notation lok := (proper_ok n r).
Notation normal := (normal n A r rt co CA PAIR WR ell ELL).
Notation sound := (sound n A r rt co CA PAIR ell ELL).
Notation complete := (complete n A r rt co CA PAIR WR ell ELL).
Lemma D0_same u v a : ts u v -> proper u -> D0 u a -> D0 v a.
Proof. intros E P H. eapply rep_alike; [exact H|]. apply sound; [auto|now apply (lok u)|apply over_nil]. Qed.
Lemma D0_id : D0 [] (te_identity G).
Proof.
  split; [|split; [reflexivity|]].
  - unfold te_identity. cbn [te_t]. rewrite (to_rank _ _ _ _ _ T). apply sized_0.
  - cbn [te_identity te_w snd TgMath.steps fold_right]. apply (X_id n A comps W D RM MK).
Qed.
Lemma shortest_reduced v : over n v -> (shortest n (coxeter A) v (length v) <-> reduced_word n ell v).
Proof.
  intros O. pose proof (ELL v O) as SH. split.
  - intros [(x & Ox & Sx & Lx) M]. split; [auto|]. destruct SH as [(y & Oy & Sy & Ly) M']. specialize (M y Oy Sy). specialize (M' v O (same_refl _ _ v)). lia.
  - intros [_ L]. now rewrite <- L.
Qed.
Lemma denotes_D0 u a : proper u -> (denotes n A r G u a <-> D0 u a).
Proof.
  intros P. split.
  - intros (v & O & E & SH & B & Q). apply (shortest_reduced v O) in SH. pose proof (sound _ _ Q (lok u P) (0%N, []) (over_nil n)) as AL.
    rewrite (steps_normal n A r rt co ell ELL _ v SH) in AL. apply (rep_alike a (data (te_t a), v)); [|now apply alike_sym]. split; [auto|]. split; [auto|]. cbn [snd].
    now apply (element_X n A comps W D RM MK).
  - intros (B & E & H). destruct (word_run _ _ H) as (v & _ & Xv & S & R). pose proof R as [O _]. exists v. split; [auto|]. split; [now apply (element_is n A comps W D RM MK)|].
    split; [now apply shortest_reduced|]. split; [auto|]. rewrite E. apply normal; auto. rewrite steps_snd, app_nil_r in S. now apply same_sym.
Qed.
Lemma D0_normal u a : proper u -> D0 u a -> exists v, word W (te_w a) = Ok v /\ reduced_word n ell v /\ v ~ sigs u /\ ts u (Tor (data (te_t a)) :: map Sig v).
Proof.
  intros P (B & E & H). destruct (word_run _ _ H) as (v & Ev & Xv & S & R). rewrite steps_snd, app_nil_r in S. exists v. split; [auto|]. split; [auto|]. split; [auto|].
  rewrite E. apply normal; auto. now apply same_sym.
Qed.
Lemma D0_total u : proper u -> exists a, D0 u a.
Proof.
  induction u as [|[s|x] u IH]; intros P; [eexists; apply D0_id| |]; apply proper_cons in P; destruct P as [P1 P2]; cbn in P1; destruct (IH P2) as (a & Ha).
  - destruct (sigma_run s a _ Ha P1) as (b & _ & Hb). exists b. exact Hb.
  - exists (left_add (mk_bv x r) a). apply (left_add_run (mk_bv x r) a _ Ha). split; auto.
Qed.
Lemma D0_eq u v a : proper u -> proper v -> D0 u a -> D0 v a -> ts u v.
Proof.
  intros P Q (B & E & H) (B' & E' & H'). apply complete; auto. split; [congruence|]. apply (X_eq n A comps W D RM MK _ _ _ H H').
Qed.
Lemma prod_run u v a b : proper u -> proper v -> D0 u a -> D0 v b -> exists c, prod dim G a b = Ok c /\ D0 (u ++ v) c.
Proof.
  intros P Q Ha Hb. destruct (D0_normal u a P Ha) as (w & Ew & [Ow Lw] & _ & Nu). unfold prod. rewrite Ew. cbn [bind].
  destruct (sigma_letters w Ow b _ Hb) as (c & Ec & Hc). rewrite Ec. cbn [bind]. eexists. split; [reflexivity|].
  unfold D0. rewrite steps_app. pose proof (sound _ _ Nu (lok u P) (steps v (0%N, [])) (rep_over b _ Hb)) as AL. apply alike_sym in AL. eapply rep_alike; [|exact AL].
  apply (left_add_run (te_t a) c _ Hc). apply Ha.
Qed.
(** right multiplication by a generator *)
Lemma coc_right v s : reduced_word n ell v -> s < n -> coc v [s] = if ell (v ++ [s]) <? ell v then act (v ++ [s]) (co s) else 0%N.
Proof.
  intros [O L] Hs. assert (O1 : over n (v ++ [s])) by (apply over_app; split; [auto|now apply over_one]).
  assert (ONE : coc [s] [] = 0%N).
  { apply (coc_reduced n A r rt co ell ELL); [now apply over_one|]. cbn [length]. pose proof (ell_nil n (coxeter A) ell ELL) as Z0. destruct (ell_cons n (coxeter A) ell ELL s [] Hs (over_nil n)); lia. }
  assert (A0 : forall u, act u 0 = 0%N) by (induction u as [|t u IH]; [auto|]; now rewrite act_cons, IH, refl_0).
  destruct (Nat.ltb_spec (ell (v ++ [s])) (ell v)) as [LT|GE].
  - destruct (ell_word n _ ell ELL (v ++ [s]) O1) as (v' & Ov' & Sv' & Lv').
    assert (VS : v ~ v' ++ [s]).
    { apply (same_trans _ _ _ ((v ++ [s]) ++ [s])); [|now apply same_snoc]. rewrite <- app_assoc. apply same_sym. now apply same_undo. }
    assert (R' : reduced_word n ell (v' ++ [s])).
    { split; [apply over_app; split; [auto|now apply over_one]|]. rewrite app_length. cbn [length]. rewrite <- (ell_same n _ ell ELL v (v' ++ [s]) O VS).
      destruct (ell_snoc n (coxeter A) (cox_symm A) ell ELL s v Hs O); lia. }
    pose proof (shortest_words n A r rt co CA PAIR WR ell ELL v (v' ++ [s]) (conj O L) R' VS) as TS.
    destruct (sound _ _ TS ltac:(apply lok, proper_sig; auto) (0%N, [s]) (over_one n s Hs)) as [Q _]. rewrite !steps_sig in Q. cbn [fst] in Q. rewrite !A0, !N.lxor_0_l in Q.
    rewrite Q, coc_app. rewrite (coc_same n A r rt co ell ELL v' ([s] ++ [s]) []); auto.
    + assert (RV : reduced_word n ell v'). { split; [auto|]. rewrite Lv'. symmetry. now apply (ell_same n _ ell ELL). }
      rewrite (coc_reduced n A r rt co ell ELL v' Ov' (proj2 RV)), N.lxor_0_l. rewrite (act_inv (v ++ [s]) v' O1 Sv'). f_equal.
      cbn [TgMath.coc app]. rewrite refl_0, N.lxor_0_l. unfold TgMath.drop. rewrite (ell_same n _ ell ELL [s; s] []); [|intros x [<-|[<-|[]]]; auto|now apply same_square].
      pose proof (ell_nil n (coxeter A) ell ELL) as Z0. destruct (ell_cons n (coxeter A) ell ELL s [] Hs (over_nil n)) as [Q1|Q1]; [|lia]. destruct (Nat.ltb_spec (ell []) (ell [s])); [auto|lia].
    + apply over_app. split; now apply over_one.
    + now apply same_square.
  - assert (R : coc (v ++ [s]) [] = 0%N).
    { apply (coc_reduced n A r rt co ell ELL); [auto|]. rewrite app_length. cbn [length]. destruct (ell_snoc n (coxeter A) (cox_symm A) ell ELL s v Hs O); lia. }
    rewrite coc_app, ONE, A0, N.lxor_0_r in R. exact R.
Qed.
Lemma steps_right u s : proper u -> s < n -> let x := fst (steps u (0%N, [])) in
  alike (steps (u ++ [Sig s]) (0%N, [])) (N.lxor x (if ell (sigs u ++ [s]) <? ell (sigs u) then act (sigs u ++ [s]) (co s) else 0%N), sigs u ++ [s]).
Proof.
  intros P Hs x. pose proof (lok u P) as O. unfold letters_ok in O. destruct (ell_word n _ ell ELL (sigs u) O) as (v & Ov & Sv & Lv).
  assert (R : reduced_word n ell v). { split; [auto|]. rewrite Lv. symmetry. now apply (ell_same n _ ell ELL). }
  pose proof (normal u v P R Sv) as Nu. fold x in Nu.
  assert (O2 : over n (sigs u ++ [s])) by (apply over_app; split; [auto|now apply over_one]).
  split.
  - rewrite steps_app. assert (E1 : steps [Sig s] (0%N, []) = (0%N, [s])).
    { cbn [TgMath.steps fold_right TgMath.step fst snd]. f_equal. rewrite refl_0. unfold TgMath.drop. pose proof (ell_nil n (coxeter A) ell ELL) as Z0. rewrite Z0. reflexivity. }
    rewrite E1. destruct (sound _ _ Nu (lok u P) (0%N, [s]) (over_one n s Hs)) as [Q _]. rewrite Q. cbn [TgMath.steps fold_right TgMath.step fst]. fold (steps (map Sig v) (0%N, [s])). rewrite steps_sig.
    cbn [fst]. f_equal. assert (A0 : forall u, act u 0 = 0%N) by (induction u0 as [|t u0 IH]; [auto|]; now rewrite act_cons, IH, refl_0). rewrite A0, N.lxor_0_l, coc_right by auto.
    rewrite (ell_same n _ ell ELL (sigs u) v) by auto. rewrite (ell_same n _ ell ELL (sigs u ++ [s]) (v ++ [s])) by (auto; now apply same_snoc).
    rewrite (act_inv (sigs u ++ [s]) (v ++ [s])) by (auto; now apply same_snoc). reflexivity.
  - rewrite steps_snd, sigs_app, app_nil_r. cbn [snd]. apply same_refl.
Qed.
Lemma right_change w u s : X w u -> s < n -> exists w' c, mult_gen W w s = Ok (w', c) /\ X w' (u ++ [s]) /\ (c <? 0)%Z = (ell (u ++ [s]) <? ell u) /\ (0 <? c)%Z = negb (ell (u ++ [s]) <? ell u).
Proof.
  intros H Hs. pose proof (rm_X n A comps W D RM MK w u s H Hs) as M. apply gives_sure in M. destruct M as ([w' c] & E & Xw & Ec). exists w', c. split; [auto|]. split; [auto|].
  destruct (ell_snoc n (coxeter A) (cox_symm A) ell ELL s u Hs (proj1 H)) as [L|L]; destruct (Nat.ltb_spec (ell (u ++ [s])) (ell u)); cbn [negb];
  destruct (Z.ltb_spec c 0), (Z.ltb_spec 0 c); split; auto; lia.
Qed.
Lemma D0_part u a : D0 u a -> rep a (fst (steps u (0%N, [])), sigs u).
Proof. intros (B & E & H). rewrite steps_snd, app_nil_r in H. split; [auto|]. split; auto. Qed.
Lemma mult_sigma_run u a s : proper u -> D0 u a -> s < n -> exists b, mult_sigma dim G a s = Ok b /\ D0 (u ++ [Sig s]) b.
Proof.
  intros P H Hs. apply D0_part in H. destruct H as (B & E & H). cbn [fst snd] in *. destruct (right_change _ _ s H Hs) as (w & c & Ew & Xw & C1 & _). unfold mult_sigma. rewrite Ew. cbn [bind]. rewrite C1.
  pose proof (steps_right u s P Hs) as AL. cbv zeta in AL. apply alike_sym in AL. destruct (ell (sigs u ++ [s]) <? ell (sigs u)).
  - destruct (coroot_at s Hs) as (m & Em & Bm & Dm). rewrite Em. cbn [bind].
    destruct (right_add_run m (mk_te (te_t a) w) (data (te_t a), sigs u ++ [s])) as (b & Eb & Hb); [split; [auto|split; auto]|auto|]. exists b. split; [auto|]. eapply rep_alike; [exact Hb|].
    cbn [fst snd]. now rewrite Dm, E.
  - eexists. split; [reflexivity|]. eapply rep_alike; [|exact AL]. split; [exact B|]. split; [cbn; now rewrite N.lxor_0_r|exact Xw].
Qed.
Lemma act_0 u : act u 0 = 0%N.
Proof. induction u as [|s u IH]; [auto|]. now rewrite act_cons, IH, refl_0. Qed.
Lemma steps_tor u y : proper u -> within r y -> alike (steps (u ++ [Tor y]) (0%N, [])) (N.lxor (fst (steps u (0%N, []))) (act (sigs u) y), sigs u).
Proof.
  intros P By. pose proof (lok u P) as O. unfold letters_ok in O. destruct (ell_word n _ ell ELL (sigs u) O) as (v & Ov & Sv & Lv).
  assert (R : reduced_word n ell v). { split; [auto|]. rewrite Lv. symmetry. now apply (ell_same n _ ell ELL). }
  pose proof (normal u v P R Sv) as Nu. rewrite steps_app. replace (steps [Tor y] (0%N, [])) with (y, @nil nat) by (cbn; now rewrite N.lxor_0_r).
  eapply alike_trans; [apply (sound _ _ Nu (lok u P) (y, []) (over_nil n))|]. set (x := fst (steps u (0%N, []))).
  change (steps (Tor x :: map Sig v) (y, [])) with (step (Tor x) (steps (map Sig v) (y, []))). rewrite steps_sig, (coc_reduced n A r rt co ell ELL v Ov (proj2 R)), app_nil_r. cbn [TgMath.step fst snd]. rewrite N.lxor_0_r.
  rewrite (act_inv (sigs u) v O Sv). split; [auto|]. cbn [snd]. now apply same_sym.
Qed.
Lemma right_add_D0 u a t : proper u -> D0 u a -> sized r t -> exists b, right_add dim G a t = Ok b /\ D0 (u ++ [Tor (data t)]) b.
Proof.
  intros P H Bt. apply D0_part in H. destruct (right_add_run t a _ H Bt) as (b & Eb & Hb). exists b. split; [auto|]. eapply rep_alike; [exact Hb|]. apply alike_sym. apply steps_tor; auto. apply Bt.
Qed.
Lemma ts_inv_right s : s < n -> ts [Sig s; Tor (co s)] (sig_inv co s).
Proof. intros Hs. eapply ts_trans; [apply ts_commute; [auto|now apply WR]|]. rewrite (refl_own n A r rt co CA PAIR s Hs). apply ts_refl. Qed.
Lemma proper_snoc u s : proper u -> s < n -> proper (u ++ [Sig s]).
Proof. intros P Hs. apply proper_app. split; [auto|]. intros x [<-|[]]. exact Hs. Qed.
Lemma proper_tor u x : proper u -> within r x -> proper (u ++ [Tor x]).
Proof. intros P Hs. apply proper_app. split; [auto|]. intros y [<-|[]]. exact Hs. Qed.
Lemma proper_inv s : s < n -> proper (sig_inv co s).
Proof. intros Hs x [<-|[<-|[]]]; [now apply WR|exact Hs]. Qed.
Lemma mult_sigma_inv_run u a s : proper u -> D0 u a -> s < n -> exists b, mult_sigma_inv dim G a s = Ok b /\ D0 (u ++ sig_inv co s) b.
Proof.
  intros P H Hs. assert (TS : ts ((u ++ [Sig s]) ++ [Tor (co s)]) (u ++ sig_inv co s)). { rewrite <- app_assoc. apply ts_app_l. cbn [app]. now apply ts_inv_right. }
  assert (PP : proper ((u ++ [Sig s]) ++ [Tor (co s)])) by (apply proper_tor; [now apply proper_snoc|now apply WR]).
  enough (exists b, mult_sigma_inv dim G a s = Ok b /\ D0 ((u ++ [Sig s]) ++ [Tor (co s)]) b) as (b & Eb & Hb) by (exists b; split; [auto|now apply (D0_same _ _ b TS PP)]).
  pose proof (steps_tor (u ++ [Sig s]) (co s) (proper_snoc u s P Hs) (WR s Hs)) as ST. pose proof (steps_right u s P Hs) as SR. cbv zeta in SR. destruct SR as [SR _]. cbn [fst] in SR. rewrite SR, sigs_app in ST. cbn [sigs flat_map app] in ST.
  apply D0_part in H. destruct H as (B & E & H). cbn [fst snd] in *. destruct (right_change _ _ s H Hs) as (w & c & Ew & Xw & _ & C2). unfold mult_sigma_inv. rewrite Ew. cbn [bind]. rewrite C2.
  apply alike_sym in ST. destruct (ell (sigs u ++ [s]) <? ell (sigs u)); cbn [negb].
  - eexists. split; [reflexivity|]. eapply rep_alike; [|exact ST]. split; [exact B|]. split; [|exact Xw]. cbn. rewrite E, N.lxor_assoc, N.lxor_nilpotent. now rewrite N.lxor_0_r.
  - destruct (coroot_at s Hs) as (m & Em & Bm & Dm). rewrite Em. cbn [bind].
    destruct (right_add_run m (mk_te (te_t a) w) (data (te_t a), sigs u ++ [s])) as (b & Eb & Hb); [split; [auto|split; auto]|auto|]. exists b. split; [auto|]. eapply rep_alike; [exact Hb|].
    cbn [fst snd]. rewrite Dm, E. rewrite N.lxor_0_r in ST. exact ST.
Qed.
End Tits.
