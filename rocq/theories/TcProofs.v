(** Gradings along complex paths. *)

From Coq Require Import List Arith NArith ZArith Bool Lia Permutation.
From Verif Require Import VecModel VecProofs RunModel RunProofs MatSpec MatLin F2Model F2Spec F2Basics F2Proofs F2Solve F2Ops WeylModel WeylSpec TwistSpec TwistModel
  WeylTable WeylCheck WeylExchange WeylGroup WeylOps WeylMore WeylMake WeylExt WeylSign TwistProofs RootSpec RootMath TgModel TgSpec TgSem TgMath TgProofs TgRuns TnProofs TcSpec TcEval.
Import ListNotations.
Open Scope nat_scope.

Section Step.
Variables (dim n : nat) (A : nat -> nat -> Z) (r : nat) (G : tits_group) (comps : list component).
Notation W := (tg_W G).
Hypothesis D : describes n A comps.
Hypothesis RM : n <= rank_max.
Hypothesis MK : make_weyl n comps = Ok W.
Hypothesis T : tits_of dim n A r G.
Hypothesis K : twist_ok dim n A r G.
Hypothesis ND : n <= dim.
Hypothesis CL : LieTypeSpec.Cartan_like n A.
Variable g : N.
Notation X := (X n A comps W).
Notation ell := (ellx n comps W).
Notation ELL := (ELLx n A comps W D RM MK).
Notation CA := (Cart n A comps W D RM MK).
Notation rt := (root2 G).
Notation cr := (coroot2 G).
Notation refl := (reflect2 r rt cr).
Notation act := (act2 r rt cr).
Notation drop := (TgMath.drop ell).
Notation fl := (tg_twist G).
Notation f := (fun s => nth s fl 0).
Notation rep := (rep n A r G comps).
Notation ev := (ev n r G).
Notation cj := (conjugated fl).
Lemma cj_over s v : s < n -> over n v -> over n (cj s v).
Proof. intros Hs O. apply over_cons. split; [exact Hs|]. apply over_app. split; [exact O|]. apply over_one. now apply (F_lt dim n A r G K). Qed.
(** the torus part after a cross action *)
Lemma based_part s a x v : rep a (x, v) -> s < n -> exists b, basedTwistedConjugate dim G g a s = Ok b /\
  rep b (N.lxor (N.lxor (N.lxor (refl s x) (if drop s v then cr s else 0%N)) (if ell (cj s v) <? ell (s :: v) then 0%N else act (cj s v) (cr (f s)))) (if coord g s then cr s else 0%N), cj s v).
Proof.
  intros R Hs. pose proof (F_lt dim n A r G K s Hs) as Hf. destruct (sigma_run dim n A r G comps D RM MK T s a _ R Hs) as (b & E & Rb). cbn [TgMath.step fst snd] in Rb.
  unfold basedTwistedConjugate, twistedConjugate. rewrite E. cbn [bind]. rewrite (F_get dim n A r G RM K s Hs). cbn [bind].
  set (y := N.lxor (refl s x) (if drop s v then cr s else 0%N)) in *. destruct Rb as (Bb & Eb & Xb). cbn [fst snd] in Eb, Xb.
  destruct (right_change n A G comps D RM MK _ _ (f s) Xb Hf) as (w' & c & Ew & Xw & _ & C2). unfold mult_sigma_inv. rewrite Ew. cbn [bind]. rewrite C2. change ((s :: v) ++ [nth s fl 0]) with (cj s v) in *.
  destruct (coroot_at dim n A r G RM T (f s) Hf) as (m & Em & Bm & Dm). destruct (coroot_at dim n A r G RM T s Hs) as (m1 & Em1 & Bm1 & Dm1).
  assert (Q : exists d, (if negb (ell (cj s v) <? ell (s :: v)) then run m <- vget (tg_coroot G) (f s); right_add dim G (mk_te (te_t b) w') m else Ok (mk_te (te_t b) w')) = Ok d /\
    rep d (N.lxor y (if ell (cj s v) <? ell (s :: v) then 0%N else act (cj s v) (cr (f s))), cj s v)).
  { destruct (ell (cj s v) <? ell (s :: v)); cbn [negb].
    - eexists. split; [reflexivity|]. split; [exact Bb|]. split; [cbn; now rewrite N.lxor_0_r|exact Xw].
    - rewrite Em. cbn [bind]. destruct (right_add_run dim n A r G comps D RM MK T m (mk_te (te_t b) w') (y, cj s v)) as (d & Ed & Rd); [split; [exact Bb|split; [exact Eb|exact Xw]]|exact Bm|]. exists d. split; [exact Ed|]. cbn [fst snd] in Rd. rewrite Dm in Rd. exact Rd. }
  destruct Q as (d & Ed & Rd). rewrite Ed. cbn [bind]. rewrite (test_run dim n RM ND g s Hs). cbn [bind]. destruct (coord g s).
  - unfold m_alpha. rewrite Em1. cbn [bind]. eexists. split; [reflexivity|]. pose proof (left_add_run n A r G comps m1 d _ Rd Bm1) as Q. cbn [TgMath.step fst snd] in Q. rewrite Dm1, N.lxor_comm in Q. exact Q.
  - eexists. split; [reflexivity|]. rewrite N.lxor_0_r. exact Rd.
Qed.
Lemma perm_twist : LieTypeSpec.permutes n fl.
Proof.
  destruct (tw_twist _ _ _ _ _ K) as (L & F & _). unfold LieTypeSpec.permutes. apply NoDup_Permutation; [|apply seq_NoDup|].
  - apply (NoDup_nth fl 0). intros i j Hi Hj E. rewrite L in *. rewrite <- (proj2 (F i Hi)), <- (proj2 (F j Hj)). now rewrite E.
  - intros x. rewrite in_seq. split.
    + intros I. apply (In_nth fl x 0) in I as (i & Hi & <-). rewrite L in Hi. pose proof (proj1 (F i Hi)). lia.
    + intros Hx. rewrite <- (proj2 (F x ltac:(lia))). apply nth_In. rewrite L. apply F. lia.
Qed.
Lemma pair_twist (y x : list Z) s : s < n -> (forall i, i < n -> co y (f i) = co x i) -> pairing n A y (f s) = pairing n A x s.
Proof.
  intros Hs E. unfold pairing. rewrite <- (RootFin.zsum_perm n fl (fun j => co y j * A j (f s))%Z perm_twist). apply zsum_ext. intros i Hi. rewrite E by exact Hi. f_equal. apply (F_A dim n A r G K); assumption.
Qed.
Lemma fixed_step s v x : s < n -> over n v -> length x = n -> fixed_by n A fl v x -> fixed_by n A fl (cj s v) (sreflect n A s x).
Proof.
  intros Hs O L F i Hi. pose proof (F_lt dim n A r G K s Hs) as Hf. unfold conjugated. cbn [rev]. rewrite rev_app_distr. cbn [rev app]. unfold word_act. cbn [fold_right]. rewrite fold_right_app. cbn [fold_right].
  rewrite (sr_sr n A CL s x Hs L). fold (word_act n A (rev v) x).
  assert (Ly : length (word_act n A (rev v) x) = n) by (apply (ev_act dim n A r G T v 0%N x O L)).
  rewrite !co_sr by lia. rewrite (pair_twist _ x s Hs F), F by exact Hi. destruct (Nat.eqb_spec i s) as [->|Ne]; [rewrite Nat.eqb_refl; rewrite ?(F s Hs); reflexivity|].
  destruct (Nat.eqb_spec (f i) (f s)) as [Q|_]; [|cbv beta in *; rewrite ?(F i Hi); reflexivity]. exfalso. apply Ne. rewrite <- (F_inv dim n A r G K i Hi), Q. now apply (F_inv dim n A r G K).
Qed.
(** the answer, for a torus part [x] and a root [v] *)
Definition answer (x : N) (v : list Z) : bool := negb (comb2 n (fun i => negb (xorb (coord g i) (scalar r (rt i) x))) v).
Lemma answer_ev x v : answer x v = negb (xorb (comb2 n (fun i => negb (coord g i)) v) (ev x v)).
Proof. unfold answer, TcEval.ev. rewrite <- comb2_xor. f_equal. apply comb2_ext. intros i _. now rewrite negb_xorb_l. Qed.
Lemma ell_short u k : over n u -> shortest n (coxeter A) u k -> k = ell u.
Proof. intros O [(y & Oy & Sy & <-) M]. destruct (ELL u O) as [(z & Oz & Sz & Lz) M']. specialize (M z Oz Sz). specialize (M' y Oy Sy). lia. Qed.
Lemma answer_step s a b x v y : s < n -> over n v -> length y = n -> rep a (x, v) -> fixed_by n A fl v y -> complex_for n A fl s v ->
  basedTwistedConjugate dim G g a s = Ok b -> exists x', rep b (x', cj s v) /\ answer x' (sreflect n A s y) = answer x y.
Proof.
  intros Hs O L R F (k & k' & S1 & S2 & C) E. pose proof (F_lt dim n A r G K s Hs) as Hf. destruct (based_part s a x v R Hs) as (b' & E' & Rb). rewrite E in E'. injection E' as <-. eexists. split; [exact Rb|].
  apply (ell_short _ _ O) in S1. apply (ell_short _ _ (cj_over s v Hs O)) in S2.
  assert (Ly : length (sreflect n A s y) = n) by now rewrite sr_length.
  assert (Q : ev (act (cj s v) (cr (f s))) (sreflect n A s y) = Z.odd (pairing n A y s)).
  { unfold conjugated. rewrite act_cons, (ev_reflect dim n A r G T) by assumption. rewrite (sr_sr n A CL) by assumption. rewrite act_app. cbn [act2 fold_right]. rewrite (refl_own n A r rt cr CA (to_pairing _ _ _ _ _ T)) by exact Hf.
    fold (act v (cr (f s))). rewrite (proj1 (ev_act dim n A r G T v _ y O L)), (ev_coroot dim n A r G T) by exact Hf. f_equal. now apply pair_twist. }
  assert (P1 : ev (cr s) (sreflect n A s y) = Z.odd (pairing n A y s)).
  { rewrite (ev_coroot dim n A r G T) by exact Hs. rewrite (pair_sr_self n A CL) by assumption. apply Z.odd_opp. }
  rewrite !answer_ev. f_equal. rewrite !ev_xor, !ev_if. rewrite P1. rewrite (comb2_reflect n A) by assumption. rewrite (ev_reflect dim n A r G T) by assumption. rewrite (sr_sr n A CL) by assumption.
  replace (ev (if ell (cj s v) <? ell (s :: v) then 0%N else act (cj s v) (cr (f s))) (sreflect n A s y)) with (negb (ell (cj s v) <? ell (s :: v)) && Z.odd (pairing n A y s)) by (destruct (ell (cj s v) <? ell (s :: v)); [now rewrite ev_0|now rewrite Q]).
  assert (DD : (ell (cj s v) <? ell (s :: v)) = drop s v).
  { unfold TgMath.drop. assert (O1 : over n (s :: v)) by now apply over_cons. destruct (ell_cons n (coxeter A) ell ELL s v Hs O), (ell_snoc n (coxeter A) (cox_symm A) ell ELL (f s) (s :: v) Hf O1) as [Z1|Z1]; change ((s :: v) ++ [nth s fl 0]) with (cj s v) in Z1;
    destruct (Nat.ltb_spec (ell (cj s v)) (ell (s :: v))), (Nat.ltb_spec (ell (s :: v)) (ell v)); try reflexivity; lia. }
  rewrite DD. destruct (drop s v), (coord g s), (Z.odd (pairing n A y s)), (ev x y), (comb2 n (fun i => negb (coord g i)) y); reflexivity.
Qed.
Lemma answer_basis x i : i < n -> answer x (basis n i) = xorb (coord g i) (scalar r (rt i) x).
Proof.
  intros Hi. unfold answer, comb2. rewrite (sum2_single n i _ Hi).
  - rewrite co_basis, Nat.eqb_refl by exact Hi. cbn. apply negb_involutive.
  - intros k _ Ne. rewrite co_basis by exact Hi. now rewrite (proj2 (Nat.eqb_neq _ _) Ne).
Qed.
Lemma act_length w y : length y = n -> length (word_act n A w y) = n.
Proof. intros L. induction w as [|s w IH]; [exact L|]. cbn. rewrite sr_length. exact IH. Qed.
Lemma answer_path i : i < n -> forall w v a x b, over n w -> over n v -> rep a (x, v) -> fixed_by n A fl v (word_act n A w (basis n i)) -> complex_path n A fl w v ->
  basedTwistedConjugate_word dim G g a w = Ok b -> noncompact r G g i b = answer x (word_act n A w (basis n i)).
Proof.
  intros Hi. induction w as [|s w IH]; intros v a x b Ow Ov R F C E.
  - injection E as <-. cbn [word_act fold_right]. rewrite answer_basis by exact Hi. unfold noncompact. now rewrite (proj1 (proj2 R)).
  - apply over_cons in Ow. destruct Ow as [Hs Ow]. destruct C as [C1 C2]. rewrite conj_cons in E. destruct (basedTwistedConjugate dim G g a s) as [a'|e] eqn:E1; [|discriminate]. cbn [bind] in E.
    assert (L : length (word_act n A w (basis n i)) = n) by (apply act_length, basis_length). assert (L' : length (word_act n A (s :: w) (basis n i)) = n) by (apply act_length, basis_length).
    destruct (answer_step s a a' x v _ Hs Ov L' R F C1 E1) as (x' & R' & Q). pose proof (fixed_step s v _ Hs Ov L' F) as F'. cbn [word_act fold_right] in Q, F' |- *. fold (word_act n A w (basis n i)) in Q, F' |- *.
    rewrite (sr_sr n A CL) in Q, F' by assumption. rewrite <- Q. apply (IH (cj s v) a' x' b Ow (cj_over s v Hs Ov) R' F' C2 E).
Qed.
End Step.
