(** Pairs of orthogonal roots whose sum is a root. *)

From Coq Require Import List Arith ZArith Bool Lia.
From Verif Require Import VecModel RunModel RunProofs MatModel MatSpec MatRing MatLin MatProofs SizeModel LieTypeSpec RootModel RootSpec RootMath RootForm RootGen RootPerm RootMake RootSys RootAcc RootOrder RootTop RsfSteps RootProps MoModel MoSpec.
Import ListNotations.
Local Open Scope Z_scope.

Lemma too_long k m k' m' pg gp qg gq : 2 * pg = 1 + k -> 2 * qg = 1 + k' -> m + m' = 0 -> k + k' = 0 -> gp = 2 + m -> gq = 2 + m' -> k * m <= 3 ->
  (0 < k <-> 0 < m) -> (k = 0 <-> m = 0) -> (0 < k' <-> 0 < m') -> (0 < pg <-> 0 < gp) -> (pg = 0 <-> gp = 0) -> (0 < qg <-> 0 < gq) -> (qg = 0 <-> gq = 0) ->
  (pg = 1 -> pg * gp <= 3) -> (qg = 1 -> qg * gq <= 3) -> False.
Proof.
  intros E1 E2 E3 E4 -> -> P S1 S2 S3 S4 S5 S6 S7 T1 T2. assert (k' = - k) by lia. assert (m' = - m) by lia. subst k' m'. clear E3 E4.
  assert (Kb : -3 <= k <= 3).
  { clear - P S1 S2 S3. destruct (Z.lt_trichotomy k 0) as [Z0|[Z0|Z0]]; [|lia|]; [assert (0 < - m) by (apply S3; lia)|assert (0 < m) by (apply S1; lia)]; nia. }
  assert (Hk : k = 1 \/ k = 3 \/ k = -1 \/ k = -3) by lia. clear Kb.
  destruct Hk as [Hk|[Hk|[Hk|Hk]]]; subst k.
  - assert (pg = 1) by lia. assert (qg = 0) by lia. subst pg qg. specialize (T1 eq_refl). lia.
  - assert (pg = 2) by lia. assert (qg = -1) by lia. subst pg qg. lia.
  - assert (pg = 0) by lia. assert (qg = 1) by lia. subst pg qg. specialize (T2 eq_refl). lia.
  - assert (pg = -1) by lia. assert (qg = 2) by lia. subst pg qg. lia.
Qed.
Section Base.
Variables (n : nat) (f : nat -> nat -> Z) (c : matrix Z) (pc : bool) (s : rootsys).
Hypothesis K : built n f c pc s.
Notation nr := (num_roots s).
Notation R := (root_at s).
Notation W := (coroot_at s).
Notation V a b := (value n f (root_at s a) (coroot_at s b)).
Notation mn := (minus_nr (num_pos s)).

Lemma b_rc a : (a < nr)%nat -> root_coroot n f (R a) (W a).
Proof. intros Ha. destruct K as (L & F & H & E). apply (top_numbers n f c pc s L F H E a Ha). Qed.
Lemma b_len a : (a < nr)%nat -> length (R a) = n /\ length (W a) = n.
Proof. intros Ha. apply (root_coroot_length n f). apply b_rc. exact Ha. Qed.
Lemma b_self a : (a < nr)%nat -> V a a = 2.
Proof. intros Ha. destruct K as (L & F & H & E). apply (rc_value n f); [|apply b_rc; exact Ha]. apply (top_good n f F). Qed.
Lemma b_sign a b : (a < nr)%nat -> (b < nr)%nat -> (0 < V a b <-> 0 < V b a) /\ (V a b = 0 <-> V b a = 0).
Proof.
  intros Ha Hb. destruct K as (L & F & H & E). destruct (top_good n f F) as [gd gd']. destruct (proj1 (proj2 gd)) as (d & D1 & D2 & D3).
  apply (values_sign n f d (proj1 gd) D1 D2 _ _ _ _ (b_rc a Ha) (b_rc b Hb)).
Qed.
Lemma b_mn a : (a < nr)%nat -> (mn a < nr)%nat /\ R (mn a) = opp (R a) /\ W (mn a) = opp (W a).
Proof. destruct K as (L & F & H & E). apply (top_minus n f c pc s L F H E). Qed.
Lemma b_prod_pos a b : (num_pos s <= a < nr)%nat -> (num_pos s <= b < nr)%nat -> a <> b -> V a b * V b a <= 3.
Proof.
  intros Ha Hb N. destruct K as (L & F & H & E). destruct (top_system n f c pc s L F H E) as (Y & _). destruct (top_good n f F) as [gd gd'].
  pose proof (prod_small n f s (top_some n f c pc s L H E ltac:(lia)) gd Y a b) as P.
  rewrite (proj2 (at_rt n f c pc s L F H E a (proj2 Ha))), (proj2 (at_rt n f c pc s L F H E b (proj2 Hb))), (proj2 (at_crt n f c pc s L F H E a (proj2 Ha))), (proj2 (at_crt n f c pc s L F H E b (proj2 Hb))).
  apply P; unfold num_roots in *; try exact N; lia.
Qed.
Lemma b_prod a b : (a < nr)%nat -> (b < nr)%nat -> a <> b -> a <> mn b -> V a b * V b a <= 3.
Proof.
  intros Ha Hb N M. destruct (b_mn a Ha) as (A1 & A2 & A3), (b_mn b Hb) as (B1 & B2 & B3).
  assert (Ea : forall x, V (mn a) x = - V a x) by (intros x; rewrite A2; apply value_opp_l). assert (Ea' : forall x, V x (mn a) = - V x a) by (intros x; rewrite A3; apply value_opp_r).
  assert (Eb : forall x, V (mn b) x = - V b x) by (intros x; rewrite B2; apply value_opp_l). assert (Eb' : forall x, V x (mn b) = - V x b) by (intros x; rewrite B3; apply value_opp_r).
  destruct (le_lt_dec (num_pos s) a) as [Pa|Pa], (le_lt_dec (num_pos s) b) as [Pb|Pb].
  - apply b_prod_pos; lia.
  - pose proof (b_prod_pos a (mn b) ltac:(lia) ltac:(unfold minus_nr in *; lia) M) as P. rewrite Eb, Eb' in P. lia.
  - pose proof (b_prod_pos (mn a) b ltac:(unfold minus_nr in *; lia) ltac:(lia) ltac:(unfold minus_nr, num_roots in *; lia)) as P. rewrite Ea, Ea' in P. lia.
  - pose proof (b_prod_pos (mn a) (mn b) ltac:(unfold minus_nr in *; lia) ltac:(unfold minus_nr in *; lia) ltac:(unfold minus_nr, num_roots in *; lia)) as P. rewrite Ea, Ea', Eb, Eb' in P. lia.
Qed.
Lemma b_inj a b : (a < nr)%nat -> (b < nr)%nat -> R a = R b -> a = b.
Proof. intros Ha Hb Q. destruct K as (L & F & H & E). apply (top_inj n f c pc s L F H E a b Ha Hb). left. exact Q. Qed.
Lemma b_is a : (a < nr)%nat -> is_root n f (R a). Proof. intros Ha. exists (W a). apply b_rc. exact Ha. Qed.
Lemma b_get v : is_root n f v -> exists a, (a < nr)%nat /\ R a = v.
Proof. intros [w Q]. destruct K as (L & F & H & E). destruct (top_every n f c pc s L F H E v w Q) as (a & Ha & E1 & _). exists a. auto. Qed.
Lemma co_plus v w k : length v = n -> length w = n -> co (plus n v w) k = co v k + co w k.
Proof.
  intros Lv Lw. unfold co at 1, plus. destruct (le_lt_dec n k) as [Q|Q].
  - rewrite nth_overflow by (rewrite map_length, seq_length; exact Q). unfold co. rewrite !nth_overflow by lia. lia.
  - rewrite (nth_indep _ 0 (co v 0 + co w 0)) by (rewrite map_length, seq_length; exact Q). rewrite (map_nth (fun k => co v k + co w k)), seq_nth by exact Q. reflexivity.
Qed.
Lemma plus_len v w : length (plus n v w) = n. Proof. unfold plus. rewrite map_length, seq_length. reflexivity. Qed.
Lemma plus_swap v w : plus n v w = plus n w v.
Proof. unfold plus. apply map_ext. intros k. lia. Qed.
Lemma addable_sym a b : addable n f R a b <-> addable n f R b a.
Proof. unfold addable. rewrite plus_swap. reflexivity. Qed.

(** the coroot of the sum of two orthogonal roots *)
Lemma half a b g : (a < nr)%nat -> (b < nr)%nat -> (g < nr)%nat -> V a b = 0 -> R g = plus n (R a) (R b) ->
  V g a = 2 /\ V g b = 2 /\ V a g = 1 /\ V b g = 1 /\ forall v, 2 * value n f v (W g) = value n f v (W a) + value n f v (W b).
Proof.
  intros Ha Hb Hg O Eg. destruct (b_len a Ha) as [La La'], (b_len b Hb) as [Lb Lb'], (b_len g Hg) as [Lg Lg'].
  assert (O' : V b a = 0) by (apply (b_sign a b Ha Hb); exact O).
  assert (Ev : forall w, value n f (R g) w = value n f (R a) w + value n f (R b) w) by (intros w; rewrite Eg; apply value_plus_l; assumption).
  pose proof (b_self a Ha) as Sa. pose proof (b_self b Hb) as Sb. pose proof (b_self g Hg) as Sg.
  assert (Ga : V g a = 2) by (rewrite Ev; lia). assert (Gb : V g b = 2) by (rewrite Ev; lia).
  assert (P1 : 0 < V a g) by (apply (b_sign a g Ha Hg); lia). assert (P2 : 0 < V b g) by (apply (b_sign b g Hb Hg); lia).
  rewrite Ev in Sg. assert (A1 : V a g = 1) by lia. assert (B1 : V b g = 1) by lia. split; [exact Ga|]. split; [exact Gb|]. split; [exact A1|]. split; [exact B1|].
  destruct (C96_reflected n f c pc s g a K Hg Ha) as (d & _ & Hd & D1 & D2). destruct (b_mn b Hb) as (M1 & M2 & M3).
  assert (Ed : d = mn b).
  { apply b_inj; [exact Hd|exact M1|]. rewrite D1, M2. unfold reflect. rewrite A1, Eg. apply vec_ext; [rewrite away_length, opp_length; lia|]. intros k _. rewrite co_away, co_opp, co_plus by (try apply plus_len; assumption). lia. }
  intros v. assert (Q : value n f v (W d) = value n f v (W a) - 2 * value n f v (W g)).
  { rewrite D2. unfold reflect. rewrite value_flip, Ga. apply value_away_r; assumption. }
  rewrite Ed, M3, value_opp_r in Q. lia.
Qed.
(** a root that is the sum of two orthogonal roots *)
Definition Long x := exists p q, (p < nr)%nat /\ (q < nr)%nat /\ V p q = 0 /\ R x = plus n (R p) (R q).
Lemma long_alone x b : (x < nr)%nat -> (b < nr)%nat -> Long x -> V x b = 0 -> ~ addable n f R x b.
Proof.
  intros Hx Hb (p & q & Hp & Hq & O & Ex) Xb A. destruct (b_get _ A) as (g & Hg & Eg).
  destruct (half p q x Hp Hq Hx O Ex) as (X1 & X2 & X3 & X4 & X5). destruct (half x b g Hx Hb Hg Xb Eg) as (G1 & G2 & G3 & G4 & G5).
  destruct (b_len p Hp) as [Lp Lp'], (b_len q Hq) as [Lq Lq'], (b_len b Hb) as [Lb Lb'], (b_len x Hx) as [Lx Lx'].
  assert (O' : V q p = 0) by (apply (b_sign p q Hp Hq); exact O). pose proof (b_self p Hp) as Sp. pose proof (b_self q Hq) as Sq.
  assert (Ev : forall w, value n f (R x) w = value n f (R p) w + value n f (R q) w) by (intros w; rewrite Ex; apply value_plus_l; assumption).
  assert (Eg' : forall w, value n f (R g) w = value n f (R x) w + value n f (R b) w) by (intros w; rewrite Eg; apply value_plus_l; assumption).
  pose proof (G5 (R p)) as P1. pose proof (G5 (R q)) as Q1. rewrite X3 in P1. rewrite X4 in Q1.
  assert (Bx : V b x = 0) by (apply (b_sign x b Hx Hb); exact Xb). pose proof (X5 (R b)) as B1. rewrite Bx in B1.
  pose proof Xb as B2. rewrite Ev in B2. pose proof (Eg' (W p)) as P2. pose proof (Eg' (W q)) as Q2. rewrite X1 in P2. rewrite X2 in Q2.
  assert (Np : p <> b /\ p <> mn b). { split; intros ->; [|destruct (b_mn b Hb) as (_ & M2 & M3)]; [rewrite (b_self b Hb) in B2; lia|]. rewrite M2, value_opp_l, (b_self b Hb) in B2. assert (V q b = 0) by (rewrite M3, value_opp_r in O'; lia). lia. }
  assert (Nq : q <> b /\ q <> mn b). { split; intros ->; [|destruct (b_mn b Hb) as (_ & M2 & M3)]; [rewrite (b_self b Hb) in B2; lia|]. rewrite M2, value_opp_l, (b_self b Hb) in B2. assert (V p b = 0) by (rewrite M3, value_opp_r in O; lia). lia. }
  assert (Ng : forall y, (y < nr)%nat -> V y g = 1 -> y <> g /\ y <> mn g). { intros y Hy Y. split; intros ->; [rewrite (b_self g Hg) in Y; lia|]. destruct (b_mn g Hg) as (_ & M2 & M3). rewrite M2, value_opp_l, (b_self g Hg) in Y. lia. }
  pose proof (b_prod p b Hp Hb (proj1 Np) (proj2 Np)) as PP. pose proof (b_prod q b Hq Hb (proj1 Nq) (proj2 Nq)) as PQ.
  destruct (b_sign p b Hp Hb) as [S1 S2], (b_sign q b Hq Hb) as [S3 S4], (b_sign p g Hp Hg) as [S5 S6], (b_sign q g Hq Hg) as [S7 S8].
  assert (Tp : V p g = 1 -> V p g * V g p <= 3) by (intros Y; apply b_prod; [exact Hp|exact Hg|apply (Ng p Hp Y)|apply (Ng p Hp Y)]).
  assert (Tq : V q g = 1 -> V q g * V g q <= 3) by (intros Y; apply b_prod; [exact Hq|exact Hg|apply (Ng q Hq Y)|apply (Ng q Hq Y)]).
  refine (too_long (V p b) (V b p) (V q b) (V b q) (V p g) (V g p) (V q g) (V g q) P1 Q1 _ _ P2 Q2 PP S1 S2 S3 S5 S6 S7 S8 Tp Tq); [clear - B1; lia|clear - B2; lia].
Qed.
(** what takes the place of [a] and [b] *)
Definition term_ok v (a b x y : nat) : Prop := (x < nr)%nat /\ (y < nr)%nat /\
  (forall k, co (R x) k = - (co (R a) k + co (R b) k)) /\ (forall k, co (R y) k = co (R b) k - co (R a) k) /\
  2 * value n f v (W x) = - (value n f v (W a) + value n f v (W b)) /\ 2 * value n f v (W y) = value n f v (W b) - value n f v (W a).
Lemma pair_new a b g : (a < nr)%nat -> (b < nr)%nat -> (g < nr)%nat -> V a b = 0 -> R g = plus n (R a) (R b) ->
  exists y, reflected s b (mn g) = Ok y /\ (forall v, term_ok v a b (mn g) y) /\ Long (mn g) /\ Long y /\ V (mn g) y = 0.
Proof.
  intros Ha Hb Hg O Eg. destruct (half a b g Ha Hb Hg O Eg) as (X1 & X2 & X3 & X4 & X5). destruct (b_mn g Hg) as (M1 & M2 & M3), (b_mn a Ha) as (A1 & A2 & A3), (b_mn b Hb) as (B1 & B2 & B3).
  destruct (b_len a Ha) as [La La'], (b_len b Hb) as [Lb Lb'], (b_len g Hg) as [Lg Lg'].
  destruct (C96_reflected n f c pc s b (mn g) K Hb M1) as (y & E & Hy & Y1 & Y2). exists y. split; [exact E|].
  assert (Cx : forall k, co (R (mn g)) k = - (co (R a) k + co (R b) k)) by (intros k; rewrite M2, co_opp, Eg, co_plus by assumption; lia).
  assert (Cy : forall k, co (R y) k = co (R b) k - co (R a) k).
  { intros k. rewrite Y1. unfold reflect. rewrite co_away by (try assumption; rewrite M2, opp_length; exact Lg). rewrite Cx, M2, value_opp_l, X2. lia. }
  assert (T : forall v, term_ok v a b (mn g) y).
  { intros v. split; [exact M1|]. split; [exact Hy|]. split; [exact Cx|]. split; [exact Cy|].
    assert (Vx : 2 * value n f v (W (mn g)) = - (value n f v (W a) + value n f v (W b))) by (rewrite M3, value_opp_r, <- X5; lia). split; [exact Vx|].
    rewrite Y2. unfold reflect. rewrite value_away_r by (rewrite ?M3, ?opp_length; assumption). rewrite value_flip, M3, !value_opp_r. rewrite X4. pose proof (X5 v). lia. }
  split; [exact T|]. split; [|split; [|destruct (T (R (mn g))) as (_ & _ & _ & _ & _ & Q); rewrite M2, !value_opp_l, X1, X2 in Q; rewrite M2, value_opp_l; lia]].
  - exists (mn a), (mn b). split; [exact A1|]. split; [exact B1|]. split; [rewrite A2, B3, value_opp_l, value_opp_r; lia|].
    apply vec_ext; [rewrite plus_len; apply b_len; exact M1|]. intros k _. rewrite co_plus by (apply b_len; assumption). rewrite Cx, A2, B2, !co_opp. lia.
  - exists (mn a), b. split; [exact A1|]. split; [exact Hb|]. split; [rewrite A2, value_opp_l; lia|].
    apply vec_ext; [rewrite plus_len; apply b_len; exact Hy|]. intros k _. rewrite co_plus by (apply b_len; assumption). rewrite Cy, A2, !co_opp. lia.
Qed.
(** differences *)
Lemma difference a b : (a < nr)%nat -> (b < nr)%nat -> V a b = 0 -> is_root n f (away n (R a) 1 (R b)) -> addable n f R a b.
Proof.
  intros Ha Hb O D. destruct (b_get _ D) as (d & Hd & Ed). destruct (C96_reflected n f c pc s b d K Hb Hd) as (y & _ & Hy & Y1 & _). unfold addable.
  destruct (b_len a Ha) as [La La'], (b_len b Hb) as [Lb Lb'], (b_len d Hd) as [Ld Ld'].
  replace (plus n (R a) (R b)) with (R y); [apply b_is; exact Hy|]. rewrite Y1. unfold reflect. apply vec_ext; [rewrite away_length, plus_len; reflexivity|]. intros k _.
  rewrite co_away, co_plus by assumption. assert (Vd : V d b = -2) by (rewrite Ed, value_away_l by assumption; rewrite O, (b_self b Hb); lia).
  rewrite Vd, Ed, co_away by assumption. lia.
Qed.
End Base.
