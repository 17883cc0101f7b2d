(** Positive roots with pairings at most zero are independent, and their Cartan matrix is of finite type. *)

From Coq Require Import List Arith ZArith Bool Lia Permutation Sorted.
From Verif Require Import VecModel VecProofs RunModel RunProofs MatModel MatSpec MatProofs MatLin MatOps MatProps LatModel SizeModel LieTypeModel LieTypeSpec
  RootModel RootSpec RootBase RootMath RootForm RootFin RootCo RootAcc RootSys RootUniq RootOrder RootBasis RootTop RootProps DatModel DatSpec DatMath DatProofs DatOps DatFactor DatGens DatSub ClsMain.
Import ListNotations.
Local Open Scope Z_scope.

Section Gram.
Variables (n : nat) (C : nat -> nat -> Z).
Hypothesis gd : good n C.
Variable m : nat.
Variables V W : nat -> list Z.
Hypothesis rcV : forall i, (i < m)%nat -> root_coroot n C (V i) (W i).
Hypothesis posV : forall i, (i < m)%nat -> nonneg (V i).
Hypothesis away0 : forall i j, (i < m)%nat -> (j < m)%nat -> i <> j -> value n C (V i) (W j) <= 0.
Notation G := (fun i j => value n C (V i) (W j)).

Lemma V_len i : (i < m)%nat -> length (V i) = n.
Proof. intros H. apply (root_length n C). exists (W i). apply rcV. exact H. Qed.
Definition tot (x : nat -> Z) (k : nat) : Z := zsum m (fun i => x i * co (V i) k).

Section Form.
Variable d : nat -> Z.
Hypothesis fd : formed n C d.
Let dpos := proj1 fd. Let dsym := proj1 (proj2 fd). Let ddef := proj2 (proj2 fd).
Let cart := proj1 gd.
Notation fm := (fm n C d).
Lemma fm_sum q (U : nat -> nat -> Z) x y : fm (fun k => zsum q (fun i => x i * U i k)) y = zsum q (fun i => x i * fm (U i) y).
Proof.
  induction q as [|q IH].
  - unfold zsum at 1. cbn [fsum]. unfold RootForm.fm. apply zsum_zero. intros i Hi. apply zsum_zero. intros j Hj. lia.
  - change (zsum (S q) (fun i => x i * fm (U i) y)) with (zsum q (fun i => x i * fm (U i) y) + x q * fm (U q) y). rewrite <- IH.
    rewrite (fm_ext n C d _ (fun k => 1 * zsum q (fun i => x i * U i k) + x q * U q k) y y); [rewrite fm_lin_l; lia| |reflexivity].
    intros k Hk. unfold zsum. cbn [fsum]. lia.
Qed.
Lemma fm_V i j : (i < m)%nat -> (j < m)%nat -> exists q, 0 < q /\ fm (co (V i)) (co (V i)) = 2 * q /\ G j i * q = fm (co (V i)) (co (V j)).
Proof. intros Hi Hj. apply (value_form n C d cart dpos dsym (V j) (V i) (W i) (rcV i Hi)). Qed.
Lemma fm_away i j : (i < m)%nat -> (j < m)%nat -> i <> j -> fm (co (V i)) (co (V j)) <= 0.
Proof. intros Hi Hj N. destruct (fm_V i j Hi Hj) as (q & Q0 & _ & <-). pose proof (away0 j i Hj Hi (not_eq_sym N)). nia. Qed.
Lemma zero_tot x : (forall i, (i < m)%nat -> 0 <= x i) -> (forall k, (k < n)%nat -> tot x k = 0) -> forall i, (i < m)%nat -> x i = 0.
Proof.
  intros X0 T i Hi. destruct (root_nonzero n C d cart dpos dsym (V i) (W i) (rcV i Hi)) as (k & Hk & N). specialize (T k Hk). unfold tot in T.
  pose proof (zsum_ge m (fun i => x i * co (V i) k) i Hi) as Q. cbn beta in Q. rewrite T in Q.
  assert (A : forall j, (j < m)%nat -> 0 <= x j * co (V j) k) by (intros j Hj; pose proof (X0 j Hj); pose proof (posV j Hj k); nia).
  specialize (Q A). specialize (A i Hi). pose proof (posV i Hi k). pose proof (X0 i Hi). nia.
Qed.
Lemma V_independent x : (forall k, (k < n)%nat -> tot x k = 0) -> forall i, (i < m)%nat -> x i = 0.
Proof.
  intros T. set (a := fun i => Z.max 0 (x i)). set (b := fun i => Z.max 0 (- x i)).
  assert (AB : forall k, (k < n)%nat -> tot a k = tot b k).
  { intros k Hk. specialize (T k Hk). assert (tot a k = tot b k + tot x k); [|lia]. unfold tot. rewrite <- zsum_add. apply zsum_ext. intros i Hi. assert (E : a i = b i + x i) by (unfold a, b; lia). rewrite E. ring. }
  assert (Q : fm (tot a) (tot a) <= 0).
  { rewrite (fm_ext n C d (tot a) (tot a) (tot a) (tot b)); [|reflexivity|exact AB]. unfold tot at 1. rewrite (fm_sum m (fun i => co (V i)) a (tot b)).
    rewrite <- lsum_zsum. apply lsum_neg. intros i Ii. apply in_seq in Ii. rewrite (fm_sym n C d dsym). unfold tot. rewrite (fm_sum m (fun i => co (V i)) b (co (V i))).
    rewrite <- zsum_mul_l, <- lsum_zsum. apply lsum_neg. intros j Ij. apply in_seq in Ij. destruct (Nat.eq_dec j i) as [->|N].
    - assert (E : a i = 0 \/ b i = 0) by (unfold a, b; lia). destruct E as [-> | ->]; lia.
    - pose proof (fm_away j i ltac:(lia) ltac:(lia) N). assert (0 <= a i) by (unfold a; lia). assert (0 <= b j) by (unfold b; lia). assert (0 <= a i * b j) by (apply Z.mul_nonneg_nonneg; assumption). nia. }
  assert (Z0 : forall k, (k < n)%nat -> tot a k = 0).
  { intros k Hk. destruct (Z.eq_dec (tot a k) 0) as [|N]; [assumption|]. pose proof (fm_pos n C d ddef (tot a) (ex_intro _ k (conj Hk N))). lia. }
  intros i Hi. pose proof (zero_tot a ltac:(intros; unfold a; lia) Z0 i Hi) as A0.
  pose proof (zero_tot b ltac:(intros; unfold b; lia) ltac:(intros k Hk; rewrite <- AB by exact Hk; apply Z0; exact Hk) i Hi) as B0. unfold a, b in *. lia.
Qed.
End Form.
Lemma V_count : (m <= n)%nat.
Proof.
  destruct gd as (_ & (d & fd) & _). apply (independent_wide n m (fun k i => co (V i) k)). intros x T. apply (V_independent d fd).
  intros k Hk. rewrite <- (T k Hk). unfold tot, fapply. apply zsum_ext. intros. lia.
Qed.
Lemma G_Cartan : Cartan_like m G.
Proof.
  pose proof gd as (cart & (d & fd) & _). split; [|split].
  - intros i Hi. apply (rc_value n C cart). apply rcV. exact Hi.
  - exact away0.
  - intros i j Hi Hj E. destruct fd as (dpos & dsym & ddef). apply (values_sign n C d cart dpos dsym (V i) (V j) (W i) (W j)); auto.
Qed.
Lemma G_formed : exists e, formed m G e.
Proof.
  destruct gd as (cart & (d & fd) & _). exists (fun i => fm n C d (co (V i)) (co (V i)) / 2).
  assert (K : forall i j, (i < m)%nat -> (j < m)%nat -> fm n C d (co (V i)) (co (V i)) / 2 * G j i = fm n C d (co (V i)) (co (V j)) /\ 0 < fm n C d (co (V i)) (co (V i)) / 2).
  { intros i j Hi Hj. destruct (fm_V d fd i j Hi Hj) as (q & Q0 & Q1 & Q2). assert (E : fm n C d (co (V i)) (co (V i)) / 2 = q) by (rewrite Q1, (Z.mul_comm 2), Z.div_mul by lia; reflexivity). rewrite E. split; [lia|exact Q0]. }
  pose proof fd as (dpos & dsym & ddef).
  split; [|split].
  - intros i Hi. apply (K i i Hi Hi).
  - intros i j Hi Hj. rewrite (proj1 (K i j Hi Hj)), (proj1 (K j i Hj Hi)). apply (fm_sym n C d dsym).
  - intros x Xn. assert (E : qform m (fun i j => fm n C d (co (V i)) (co (V i)) / 2 * G j i) x = fm n C d (tot x) (tot x)).
    { unfold qform. unfold tot at 1. rewrite (fm_sum d m (fun i => co (V i)) x (tot x)). apply zsum_ext. intros i Hi. rewrite (fm_sym n C d dsym (co (V i)) (tot x)). unfold tot. rewrite (fm_sum d m (fun i => co (V i)) x (co (V i))).
      rewrite <- zsum_mul_l. apply zsum_ext. intros j Hj. rewrite (proj1 (K i j Hi Hj)), (fm_sym n C d dsym (co (V j))). lia. }
    rewrite E. clear E. destruct (Z_lt_le_dec 0 (fm n C d (tot x) (tot x))) as [|L]; [assumption|exfalso].
    destruct Xn as (i & Hi & N). apply N. apply (V_independent d fd); [|exact Hi]. intros k Hk. destruct (Z.eq_dec (tot x k) 0) as [|Nk]; [assumption|].
    pose proof (fm_pos n C d ddef (tot x) (ex_intro _ k (conj Hk Nk))). lia.
Qed.
Theorem G_finite : (n <= 32)%nat -> finite_type m G.
Proof. intros H. destruct G_formed as (e & F). pose proof V_count. apply (formed_finite m G e); [lia|exact G_Cartan|exact F]. Qed.
End Gram.

(** the value of a coroot on a combination *)
Lemma value_dot n C v w : value n C v w = dot n v (map (fun i => zsum n (fun j => C i j * co w j)) (seq 0 n)).
Proof.
  unfold value, dot. apply zsum_ext. intros i Hi. rewrite co_map by exact Hi. rewrite <- zsum_mul_l. apply zsum_ext. intros. lia.
Qed.
Lemma value_comb n C m V v w : value n C (comb n m V v) w = zsum m (fun i => co v i * value n C (V i) w).
Proof. rewrite value_dot, dot_comb. apply zsum_ext. intros i Hi. rewrite value_dot. reflexivity. Qed.
Lemma value_comb_r n C m W v w : value n C v (comb n m W w) = zsum m (fun i => co w i * value n C v (W i)).
Proof. rewrite <- value_flip, value_comb. apply zsum_ext. intros i Hi. rewrite value_flip. reflexivity. Qed.
Lemma comb_comb r n al m V u : comb r n al (comb n m V u) = comb r m (fun i => comb r n al (V i)) u.
Proof.
  apply vec_ext; [rewrite !comb_length; reflexivity|]. intros k Hk. rewrite comb_length in Hk. rewrite !co_comb by exact Hk.
  rewrite (zsum_ext n _ (fun i => zsum m (fun j => co u j * co (V j) i * co (al i) k))).
  - rewrite zsum_swap. apply zsum_ext. intros j Hj. rewrite co_comb by exact Hk. rewrite <- zsum_mul_l. apply zsum_ext. intros. lia.
  - intros i Hi. rewrite co_comb by exact Hi. rewrite Z.mul_comm, <- zsum_mul_l. apply zsum_ext. intros. lia.
Qed.

Section Sub.
Variables (n : nat) (f : nat -> nat -> Z) (c : matrix Z) (pc : bool) (s : rootsys).
Hypothesis bt : built n f c pc s.
Notation np := (num_pos s).
Variable B : bset.
Hypothesis BL : length B = num_roots s.
Hypothesis BR : forall a b d, bmem B a = true -> bmem B b = true -> reflected s a b = Ok d -> bmem B d = true.
Variable l : list nat.
Hypothesis Bl : simple_basis s B = Ok l.
Let n32 : (n <= 32)%nat := proj1 bt.
Let ft : finite_type n f := proj1 (proj2 bt).
Let mc : is_mx c n n f := proj1 (proj2 (proj2 bt)).
Let made : root_system c pc = Ok s := proj2 (proj2 (proj2 bt)).
Let gd : good n f := proj1 (top_good n f ft).
Notation rt := (root_at s).
Notation crt := (coroot_at s).
Notation m := (length l).
Definition sV (i : nat) : list Z := rt (nth i l 0%nat).
Definition sW (i : nat) : list Z := crt (nth i l 0%nat).
Notation G := (fun i j => value n f (sV i) (sW j)).
Lemma l_nodup : NoDup l.
Proof.
  destruct (top_basis n f c pc s n32 ft mc made B BL BR) as (l' & E & So & _). rewrite Bl in E. injection E as <-. clear -So.
  induction So as [|a q So IH F]; constructor; [|exact IH]. intros I. rewrite Forall_forall in F. apply F in I. lia.
Qed.
Lemma l_at i : (i < m)%nat -> In (nth i l 0%nat) l /\ bmem B (nth i l 0%nat) = true /\ (np <= nth i l 0%nat < num_roots s)%nat.
Proof.
  intros Hi. pose proof (nth_In l 0%nat Hi) as I. destruct (g_l n f c pc s bt B BL BR l Bl _ I) as [M P]. split; [exact I|]. split; [exact M|]. split; [exact P|apply (g_lt n f c pc s bt B BL); exact M].
Qed.
Lemma s_rc i : (i < m)%nat -> root_coroot n f (sV i) (sW i).
Proof. intros Hi. apply (g_rc n f c pc s bt). apply (l_at i Hi). Qed.
Lemma s_pos i : (i < m)%nat -> nonneg (sV i).
Proof. intros Hi. apply (top_sign n f c pc s n32 ft mc made (nth i l 0%nat)); apply (l_at i Hi). Qed.
Lemma s_away i j : (i < m)%nat -> (j < m)%nat -> i <> j -> value n f (sV i) (sW j) <= 0.
Proof.
  intros Hi Hj N. destruct (top_basis_sums n f c pc s n32 ft mc made B BL BR) as (l' & E & _ & Ob). rewrite Bl in E. injection E as <-.
  apply Ob; [apply (l_at i Hi)|apply (l_at j Hj)|]. intros Q. apply N. apply (proj1 (NoDup_nth l 0%nat) l_nodup); assumption.
Qed.
Theorem sub_count : (m <= n)%nat.
Proof. exact (V_count n f gd m sV sW s_rc s_pos s_away). Qed.
Theorem sub_finite : finite_type m G.
Proof. exact (G_finite n f gd m sV sW s_rc s_pos s_away n32). Qed.
Lemma s_len i : (i < m)%nat -> length (sV i) = n /\ length (sW i) = n.
Proof. intros Hi. apply (g_len n f c pc s bt). apply (l_at i Hi). Qed.
(** roots of the Cartan matrix of the subsystem are members *)
Lemma sub_sound v w : root_coroot m G v w -> exists a, bmem B a = true /\ rt a = comb n m sV v /\ crt a = comb n m sW w.
Proof.
  induction 1 as [i Hi|i v w Hi R (a & M & E1 & E2)].
  - exists (nth i l 0%nat). destruct (s_len i Hi). rewrite !comb_basis by assumption. split; [apply (l_at i Hi)|]. split; reflexivity.
  - destruct (l_at i Hi) as (Ii & Mi & Hb). pose proof (g_lt n f c pc s bt B BL a M) as Ha. destruct (s_len i Hi) as [LV LW].
    destruct (top_reflected n f c pc s n32 ft mc made (nth i l 0%nat) a ltac:(lia) Ha) as (d & E & _ & R1 & R2). exists d. split; [exact (BR _ _ d Mi M E)|].
    assert (Lv : length v = m) by (apply (root_length m G); exists w; exact R). assert (Lw : length w = m) by (apply (root_length m (flip G)); exists v; apply rc_flip; exact R).
    rewrite R1, R2. unfold sreflect. rewrite !comb_bump by assumption. fold (sV i) (sW i). unfold reflect. rewrite E1, E2. rewrite value_comb, (value_comb n (flip f)). unfold pairing, flip. split; f_equal.
    + rewrite Z.opp_involutive. reflexivity.
    + rewrite Z.opp_involutive. apply zsum_ext. intros j Hj. f_equal. exact (value_flip n f (sV i) (sW j)).
Qed.
Lemma sub_step a : bmem B a = true -> (np <= a)%nat -> In a l \/ exists i d, (i < m)%nat /\ reflected s (nth i l 0%nat) a = Ok d /\ bmem B d = true /\ (np <= d)%nat /\ height (rt d) < height (rt a).
Proof.
  intros M P. pose proof (g_lt n f c pc s bt B BL a M) as Ha. destruct (in_dec Nat.eq_dec a l) as [I|N]; [left; exact I|right].
  destruct (top_basis_sums n f c pc s n32 ft mc made B BL BR) as (l' & E & Su & _). rewrite Bl in E. injection E as <-.
  destruct (Su a M P) as (ms & I & Es).
  assert (K : exists x, In x ms /\ 0 < value n f (rt x) (crt a)).
  { pose proof (rc_value n f (proj1 gd) _ _ (g_rc n f c pc s bt a Ha)) as V2. rewrite Es in V2.
    assert (Q : forall ms, incl ms l -> 0 < value n f (vsum n (map rt ms)) (crt a) -> exists x, In x ms /\ 0 < value n f (rt x) (crt a)).
    { clear -bt BL BR Bl. induction ms as [|x ms IH]; intros I V.
      - exfalso. cbn [map vsum fold_right] in V. unfold value in V. rewrite zsum_zero in V; [lia|]. intros i Hi. apply zsum_zero. intros j Hj. unfold co at 1. rewrite nth_repeat. lia.
      - cbn [map vsum fold_right] in V. fold (vsum n (map rt ms)) in V. assert (Hx : (x < num_roots s)%nat) by (apply (g_lt n f c pc s bt B BL); apply (g_l n f c pc s bt B BL BR l Bl); apply I; left; reflexivity).
        rewrite value_plus_l in V; [|apply (g_len n f c pc s bt x Hx)|destruct ms; [apply repeat_length|apply plus_length]].
        destruct (Z_lt_le_dec 0 (value n f (rt x) (crt a))) as [Q|Q]; [exists x; split; [left; reflexivity|exact Q]|].
        destruct (IH (fun y Iy => I y (or_intror Iy)) ltac:(lia)) as (y & Iy & Vy). exists y. split; [right; exact Iy|exact Vy]. }
    apply (Q ms I). rewrite V2. lia. }
  destruct K as (x & Ix & Vx). apply I in Ix. destruct (In_nth _ _ 0%nat Ix) as (i & Hi & Ex). pose proof (g_l n f c pc s bt B BL BR l Bl x Ix) as [Mx Px]. pose proof (g_lt n f c pc s bt B BL x Mx) as Hx.
  destruct (top_reflected n f c pc s n32 ft mc made x a Hx Ha) as (d & Ed & Hd & R1 & _). exists i, d. rewrite Ex. split; [exact Hi|]. split; [exact Ed|].
  assert (Nax : a <> x) by (intros ->; contradiction). destruct (g_keeps n f c pc s bt B BL BR l Bl x a d Ix M P Nax Ed) as (Md & Hd2 & _). split; [exact Md|]. split; [lia|].
  destruct (g_len n f c pc s bt x Hx) as [Lx _]. destruct (g_len n f c pc s bt a Ha) as [La _]. rewrite R1. unfold reflect. rewrite height_away by assumption.
  pose proof (g_height n f c pc s bt B BL x ltac:(lia)) as Hh. destruct gd as (cart & (e & (dp & ds & dd)) & _).
  assert (0 < value n f (rt a) (crt x)); [|nia]. apply (values_sign n f e cart dp ds (rt x) (rt a) (crt x) (crt a)); [apply (g_rc n f c pc s bt); exact Hx|apply (g_rc n f c pc s bt); exact Ha|exact Vx].
Qed.
(** and conversely *)
Lemma sub_complete_pos : forall h a, (Z.to_nat (height (rt a)) <= h)%nat -> bmem B a = true -> (np <= a)%nat -> exists v w, root_coroot m G v w /\ rt a = comb n m sV v /\ crt a = comb n m sW w.
Proof.
  induction h as [|h IH]; intros a Hh M P; pose proof (g_lt n f c pc s bt B BL a M) as Ha; pose proof (g_height n f c pc s bt B BL a (conj P Ha)) as Pos; [lia|].
  destruct (sub_step a M P) as [I|(i & d & Hi & Ed & Md & Pd & Lt)].
  - destruct (In_nth _ _ 0%nat I) as (i & Hi & <-). destruct (s_len i Hi). exists (basis m i), (basis m i). rewrite !comb_basis by assumption. split; [constructor; exact Hi|split; reflexivity].
  - destruct (IH d ltac:(lia) Md Pd) as (v & w & R & E1 & E2). exists (sreflect m G i v), (sreflect m (flip G) i w). split; [constructor; assumption|].
    destruct (l_at i Hi) as (Ii & Mi & Hb). destruct (s_len i Hi) as [LV LW]. pose proof (g_lt n f c pc s bt B BL d Md) as Hd.
    destruct (top_reflected n f c pc s n32 ft mc made (nth i l 0%nat) a ltac:(lia) Ha) as (d' & Ed' & _ & R1 & R2). rewrite Ed in Ed'. injection Ed' as <-.
    assert (Lv : length v = m) by (apply (root_length m G); exists w; exact R). assert (Lw : length w = m) by (apply (root_length m (flip G)); exists v; apply rc_flip; exact R).
    destruct (g_len n f c pc s bt a Ha) as [La1 La2].
    pose proof (s_rc i Hi) as rci. pose proof (rc_flip n f _ _ rci) as rci'.
    rewrite <- (reflect_reflect n f (proj1 gd) (sV i) (sW i) (rt a) rci La1). rewrite <- (reflect_reflect n (flip f) (flip_Cartan n f (proj1 gd)) (sW i) (sV i) (crt a) rci' La2).
    fold (sV i) (sW i) in R1, R2. rewrite <- R1, <- R2. unfold sreflect. rewrite !comb_bump by assumption. unfold reflect. rewrite E1, E2. rewrite value_comb, (value_comb n (flip f)). unfold pairing, flip. split; f_equal.
    + rewrite Z.opp_involutive. reflexivity.
    + rewrite Z.opp_involutive. apply zsum_ext. intros j Hj. f_equal. exact (value_flip n f (sV i) (sW j)).
Qed.
Theorem sub_roots x y : (exists a, bmem B a = true /\ rt a = x /\ crt a = y) <-> (exists v w, root_coroot m G v w /\ x = comb n m sV v /\ y = comb n m sW w).
Proof.
  split.
  - intros (a & M & <- & <-). pose proof (g_lt n f c pc s bt B BL a M) as Ha. destruct (le_lt_dec np a) as [P|P]; [exact (sub_complete_pos _ a (le_n _) M P)|].
    pose proof (g_minus n f c pc s bt B BL BR a M) as Mm. destruct (top_minus n f c pc s n32 ft mc made a Ha) as (Hm & Em1 & Em2).
    destruct (sub_complete_pos _ (minus_nr np a) (le_n _) Mm ltac:(unfold minus_nr, num_roots in *; lia)) as (v & w & R & E1 & E2).
    exists (opp v), (opp w). split; [apply rc_opp; [|exact R]; exact (G_Cartan n f gd m sV sW s_rc s_away)|]. rewrite !comb_opp, <- E1, <- E2, Em1, Em2, !opp_opp. split; reflexivity.
  - intros (v & w & R & -> & ->). exact (sub_sound v w R).
Qed.
End Sub.
