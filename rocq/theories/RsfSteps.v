(** Making the image of a simple system positive. *)

From Coq Require Import List Arith ZArith Bool Lia Sorted Permutation.
From Verif Require Import VecModel VecProofs RunModel RunProofs MatModel MatSpec MatRing MatLin MatProofs SizeModel BitsetSpec DynBits DynkinModel LieTypeSpec
  RootModel RootSpec RootMath RootForm RootFin RootBase RootSys RootAcc RootExt RootUniq RootTop RootPerm RsfModel RsfBase DatSpec DatMath.
Import ListNotations.
Local Open Scope Z_scope.

Definition neg (v : list Z) : bool := existsb (fun x => x <? 0) v.
Lemma neg_nonneg v : neg v = false <-> nonneg v.
Proof.
  unfold neg, nonneg, co. split.
  - intros H j. destruct (le_lt_dec (length v) j) as [Q|Q]; [rewrite nth_overflow by exact Q; lia|]. destruct (Z.ltb_spec (nth j v 0) 0) as [R|R]; [|exact R]. assert (existsb (fun x => x <? 0) v = true); [|congruence]. apply existsb_exists. exists (nth j v 0). split; [apply nth_In; exact Q|]. apply Z.ltb_lt. exact R.
  - intros H. destruct (existsb (fun x => x <? 0) v) eqn:E; [|reflexivity]. apply existsb_exists in E. destruct E as (x & I & L). apply Z.ltb_lt in L. destruct (In_nth v x 0 I) as (j & _ & Ej). specialize (H j). lia.
Qed.
(** the linear form of a coroot *)
Definition form_of (n : nat) (f : nat -> nat -> Z) (w : list Z) : list Z := map (fun k => zsum n (fun j => f k j * co w j)) (seq 0 n).
Lemma form_dot n f v w : dot n v (form_of n f w) = value n f v w.
Proof.
  unfold dot, value. apply zsum_ext. intros i Hi. unfold form_of. rewrite co_map by exact Hi. rewrite <- zsum_mul_l. apply zsum_ext. intros j Hj. ring.
Qed.
Lemma form_reflect n f r w v : reflect_at n r (form_of n f w) v = reflect n f r w v.
Proof. unfold reflect_at, reflect. rewrite form_dot. reflexivity. Qed.
Lemma value_away_r n C v u c x : length u = n -> length x = n -> value n C v (away n u c x) = value n C v u - c * value n C v x.
Proof. intros L1 L2. rewrite <- !(value_flip n C). apply value_away_l; assumption. Qed.
Lemma value_reflect n f r cr v w : length r = n -> length cr = n -> length v = n -> length w = n -> value n f r cr = 2 ->
  value n f (reflect n f r cr v) (reflect n (flip f) cr r w) = value n f v w.
Proof.
  intros L1 L2 L3 L4 Q. unfold reflect. rewrite value_away_l by assumption. rewrite !value_away_r by assumption. rewrite (value_flip n f r w), Q. ring.
Qed.
Lemma zsum_sub m x y : zsum m (fun i => x i - y i) = zsum m x - zsum m y.
Proof. unfold zsum. induction m as [|m IH]; [reflexivity|]. cbn. rewrite IH. lia. Qed.
Lemma comb_reflect r n al a b u : (forall i, (i < n)%nat -> length (al i) = r) -> length a = r -> comb r n (fun i => reflect_at r a b (al i)) u = reflect_at r a b (comb r n al u).
Proof.
  intros L La. apply vec_ext; [rewrite comb_length; symmetry; apply away_length|]. rewrite comb_length. intros k Hk. rewrite co_comb by exact Hk. unfold reflect_at. rewrite co_away by (try apply comb_length; exact La).
  rewrite co_comb, dot_comb by exact Hk. rewrite <- zsum_mul_r, <- zsum_sub. apply zsum_ext. intros i Hi. rewrite co_away by (auto; exact La). ring.
Qed.

Section Steps.
Variables (n : nat) (f : nat -> nat -> Z) (c : matrix Z) (pc : bool) (s : rootsys).
Hypothesis n32 : (n <= 32)%nat.
Hypothesis ft : finite_type n f.
Hypothesis mc : is_mx c n n f.
Hypothesis made : root_system c pc = Ok s.
Notation np := (num_pos s).
Notation rt := (root_at s).
Notation crt := (coroot_at s).
Variables (m : nat) (g : nat -> nat -> Z).
Hypothesis fg : finite_type m g.
Variable P : list (list Z).
Hypothesis PN : NoDup P.
Hypothesis PU : forall u, In u P <-> up m g u.
Definition al (D : list nat) (i : nat) : list Z := rt (nth i D 0%nat).
Definition be (D : list nat) (i : nat) : list Z := form_of n f (crt (nth i D 0%nat)).
Notation emb D := (comb n m (al D)).
Definition image (D : list nat) : Prop := length D = m /\ (forall i, (i < m)%nat -> (nth i D 0 < 2 * np)%nat) /\
  forall i j, (i < m)%nat -> (j < m)%nat -> value n f (rt (nth i D 0%nat)) (crt (nth j D 0%nat)) = g i j.
Definition cnt (D : list nat) : nat := length (filter (fun u => neg (emb D u)) P).
Lemma al_len D i : image D -> (i < m)%nat -> length (al D i) = n.
Proof. intros (L & R & _) Hi. apply (rt_len n f c pc s n32 ft mc made). apply R. exact Hi. Qed.
Lemma emb_root D u w : image D -> root_coroot m g u w -> exists b, (b < 2 * np)%nat /\ rt b = emb D u.
Proof.
  intros I R. induction R as [i Hi|i u w Hi R IH].
  - exists (nth i D 0%nat). split; [apply (proj1 (proj2 I)); exact Hi|]. symmetry. apply (comb_basis n m (al D) i Hi). apply al_len; assumption.
  - destruct IH as (b & Hb & Eb). assert (Hd : (nth i D 0 < 2 * np)%nat) by (apply (proj1 (proj2 I)); exact Hi). destruct (top_reflected n f c pc s n32 ft mc made (nth i D 0%nat) b Hd Hb) as (d & _ & Hd' & Ed & _). exists d. split; [exact Hd'|].
    rewrite Ed, Eb, <- form_reflect. symmetry. destruct (top_good m g fg) as [g1 g2]. apply (emb_sr n m (al D) (be D) g).
    + intros j Hj. apply al_len; assumption.
    + intros j k Hj Hk. unfold be. rewrite form_dot. apply (proj2 (proj2 I)); assumption.
    + exact Hi.
    + apply (root_coroot_length m g u w R).
Qed.
Lemma neg_root b : (b < 2 * np)%nat -> neg (rt b) = true <-> (b < np)%nat.
Proof.
  intros Hb. pose proof (top_sign n f c pc s n32 ft mc made b Hb) as Q. rewrite <- neg_nonneg in Q. destruct (neg (rt b)); split; intros K; try reflexivity; try discriminate.
  - destruct (Nat.lt_ge_cases b np) as [R|R]; [exact R|]. apply Q in R. discriminate.
  - exfalso. assert (np <= b)%nat by (apply Q; reflexivity). lia.
Qed.
Lemma first_neg_ok np0 D : forall k0, match first_neg np0 k0 D with None => Forall (fun a => (np0 <= a)%nat) D | Some (k, a) => (k0 <= k < k0 + length D)%nat /\ nth (k - k0) D 0%nat = a /\ (a < np0)%nat end.
Proof.
  induction D as [|a D IH]; intros k0; cbn [first_neg]; [constructor|]. unfold is_pos. destruct (Nat.leb_spec np0 a) as [L|L].
  - specialize (IH (S k0)). destruct (first_neg np0 (S k0) D) as [[k b]|]; [|constructor; assumption]. destruct IH as (I1 & I2 & I3). cbn [length]. split; [lia|]. split; [|exact I3]. replace (k - k0)%nat with (S (k - S k0)) by lia. exact I2.
  - cbn [length]. split; [lia|]. split; [|exact L]. rewrite Nat.sub_diag. reflexivity.
Qed.
Lemma reflect_each_ok a D : (a < 2 * np)%nat -> Forall (fun b => (b < 2 * np)%nat) D -> exists D', reflect_each s a D = Ok D' /\ length D' = length D /\ forall i, (i < length D)%nat ->
  (nth i D' 0 < 2 * np)%nat /\ rt (nth i D' 0%nat) = reflect n f (rt a) (crt a) (rt (nth i D 0%nat)) /\ crt (nth i D' 0%nat) = reflect n (flip f) (crt a) (rt a) (crt (nth i D 0%nat)).
Proof.
  intros Ha F. induction F as [|b D Hb F IH]; [exists []; split; [reflexivity|]; split; [reflexivity|]; intros i Hi; cbn in Hi; lia|]. cbn [reflect_each]. destruct (top_reflected n f c pc s n32 ft mc made a b Ha Hb) as (d & -> & Hd & E1 & E2). cbn [bind].
  destruct IH as (D' & -> & L & A). cbn [bind]. exists (d :: D'). split; [reflexivity|]. split; [cbn; lia|]. intros [|i] Hi; cbn [nth]; [split; [exact Hd|split; assumption]|]. cbn in Hi. apply A. lia.
Qed.
Lemma image_all D : image D -> Forall (fun b => (b < 2 * np)%nat) D.
Proof. intros (L & R & _). apply Forall_forall. intros b I. destruct (In_nth D b 0%nat I) as (i & Hi & <-). apply R. lia. Qed.
Lemma step_image D k : image D -> (k < m)%nat -> exists D', reflect_each s (nth k D 0%nat) D = Ok D' /\ image D' /\ (forall u, length u = m -> emb D' u = emb D (sreflect m g k u)) /\
  (forall i, (i < m)%nat -> rt (nth i D' 0%nat) = reflect n f (rt (nth k D 0%nat)) (crt (nth k D 0%nat)) (rt (nth i D 0%nat))).
Proof.
  intros I Hk. pose proof I as (L & R & V). destruct (reflect_each_ok (nth k D 0%nat) D (R k Hk) (image_all D I)) as (D' & E & L' & A). rewrite L in A. exists D'. split; [exact E|]. destruct (top_good m g fg) as [g1 g2].
  destruct (rt_len n f c pc s n32 ft mc made _ (R k Hk)) as [Lk Lk'].
  split; [split; [lia|]; split|split].
  - intros i Hi. apply A. exact Hi.
  - intros i j Hi Hj. destruct (A i Hi) as (_ & -> & _). destruct (A j Hj) as (_ & _ & ->). destruct (rt_len n f c pc s n32 ft mc made _ (R i Hi)) as [Li Li']. destruct (rt_len n f c pc s n32 ft mc made _ (R j Hj)) as [Lj Lj'].
    rewrite value_reflect; try assumption; [apply V; assumption|]. apply (rc_value n f (proj1 (f_cart n f ft))). apply (rt_rc n f c pc s n32 ft mc made). apply R. exact Hk.
  - intros u Lu. transitivity (comb n m (fun i => reflect_at n (al D k) (be D k) (al D i)) u).
    + apply comb_ext. intros i Hi. unfold al at 1. destruct (A i Hi) as (_ & -> & _). unfold al, be. symmetry. apply form_reflect.
    + rewrite comb_reflect; [|intros i Hi; apply al_len; assumption|exact Lk]. symmetry. apply (emb_sr n m (al D) (be D) g); [intros i Hi; apply al_len; assumption| |exact Hk|exact Lu]. intros i j Hi Hj. unfold be. rewrite form_dot. apply V; assumption.
  - intros i Hi. apply A. exact Hi.
Qed.
Lemma neg_opp_emb D u : image D -> up m g u -> neg (emb D (opp u)) = negb (neg (emb D u)).
Proof.
  intros I U. destruct (top_good m g fg) as [g1 g2]. destruct (up_root m g u U) as [w R]. destruct (emb_root D u w I R) as (b & Hb & Eb). rewrite comb_opp, <- Eb. destruct (minus_ok n f c pc s n32 ft mc made b Hb) as (Hm & Em & Er & _). rewrite <- Er.
  pose proof (neg_root b Hb) as Q1. pose proof (neg_root _ Hm) as Q2. destruct (neg (rt b)) eqn:X, (neg (rt (minus_nr np b))) eqn:Y; try reflexivity; exfalso.
  - assert (b < np)%nat by (apply Q1; reflexivity). assert (minus_nr np b < np)%nat by (apply Q2; reflexivity). lia.
  - assert (np <= b)%nat by (destruct (Nat.lt_ge_cases b np) as [K|K]; [apply Q1 in K; discriminate|exact K]). assert (minus_nr np b < np)%nat by lia. assert (false = true) by (apply Q2; assumption). discriminate.
Qed.
Lemma step_cnt D D' k : image D -> (k < m)%nat -> (nth k D 0 < np)%nat -> (forall u, length u = m -> emb D' u = emb D (sreflect m g k u)) -> cnt D = S (cnt D').
Proof.
  intros I Hk Nk E. destruct (top_good m g fg) as [g1 g2]. assert (PU2 : forall u, In u P <-> up m (flip (flip g)) u) by exact PU.
  destruct (pos_split m (flip g) g2 g1 P PN PU2 k Hk) as (Q & Pm & Ps). change (flip (flip g)) with g in Ps. unfold cnt. rewrite !(filter_perm _ _ _ Pm). cbn [filter].
  assert (LQ : forall u, In u Q -> length u = m). { intros u J. apply (up_length m g). apply PU. apply (Permutation_in _ (Permutation_sym Pm)). right. exact J. }
  assert (B1 : neg (emb D (basis m k)) = true). { rewrite comb_basis by (try exact Hk; apply al_len; assumption). apply neg_root; [apply (proj1 (proj2 I)); exact Hk|exact Nk]. }
  rewrite B1, (E (basis m k)) by apply basis_length. rewrite (sr_basis m g (proj1 g1) k Hk), (neg_opp_emb D (basis m k) I) by (apply up_simple; exact Hk). rewrite B1. cbn [negb length]. f_equal.
  rewrite <- (filter_perm _ _ _ Ps), filter_map_length. f_equal. apply filter_ext_in. intros u J. rewrite (E u (LQ u J)). reflexivity.
Qed.
Lemma pos_cnt D : image D -> Forall (fun a => (np <= a)%nat) D -> cnt D = 0%nat.
Proof.
  intros I F. unfold cnt. assert (A : forall u, In u P -> neg (emb D u) = false).
  { intros u J. apply neg_nonneg. intros k. destruct (le_lt_dec n k) as [Q|Q]; [rewrite co_over by (rewrite comb_length; exact Q); lia|]. rewrite co_comb by exact Q. apply zsum_nonneg. intros i Hi. apply Z.mul_nonneg_nonneg; [apply (up_nonneg m g u); apply PU; exact J|].
    unfold al. pose proof (proj1 (proj2 I) i Hi) as R. apply (proj1 (top_sign n f c pc s n32 ft mc made _ R)). rewrite Forall_forall in F. apply F. apply nth_In. destruct I as (L & _). lia. }
  clear PN PU. revert A. induction P as [|u l IH]; intros A; [reflexivity|]. cbn [filter]. rewrite (A u (or_introl eq_refl)). apply IH. intros x J. apply A. right. exact J.
Qed.
Lemma steps_run fuel : forall D, image D -> (cnt D <= fuel)%nat -> forall acc, exists D' st, positive_steps fuel s D acc = Ok (D', acc ++ st) /\ image D' /\ Forall (fun a => (np <= a)%nat) D' /\ length st = cnt D /\
  Forall (fun q => (fst q < m)%nat /\ (snd q < np)%nat) st /\
  (forall u, length u = m -> emb D' u = emb D (word_act m g (map fst st) u)) /\
  (forall i, (i < m)%nat -> rt (nth i D' 0%nat) = fold_left (fun v q => reflect n f (rt (snd q)) (crt (snd q)) v) st (rt (nth i D 0%nat))).
Proof.
  induction fuel as [|fuel IH]; intros D I Cn acc; cbn [positive_steps]; pose proof (first_neg_ok np D 0) as F; destruct (first_neg np 0 D) as [[k a]|].
  - destruct F as (H1 & H2 & H3). rewrite Nat.sub_0_r in H2. assert (Hk : (k < m)%nat) by (destruct I as (L & _); lia). destruct (step_image D k I Hk) as (D1 & _ & _ & E & _). rewrite (step_cnt D D1 k I Hk ltac:(lia) E) in Cn. lia.
  - exists D, []. rewrite app_nil_r. split; [reflexivity|]. split; [exact I|]. split; [exact F|]. split; [|split; [constructor|split; [reflexivity|reflexivity]]].
    cbn [length]. symmetry. apply pos_cnt; assumption.
  - destruct F as (H1 & H2 & H3). rewrite Nat.sub_0_r in H2. assert (Hk : (k < m)%nat) by (destruct I as (L & _); lia). destruct (step_image D k I Hk) as (D1 & E1 & I1 & E & Er). rewrite <- H2, E1. cbn [bind]. pose proof (step_cnt D D1 k I Hk ltac:(lia) E) as Cs.
    destruct (IH D1 I1 ltac:(lia) (acc ++ [(k, nth k D 0%nat)])) as (D' & st & -> & I' & Po & Ln & Fa & Em & Rf). exists D', ((k, nth k D 0%nat) :: st). rewrite <- app_assoc. split; [reflexivity|]. split; [exact I'|]. split; [exact Po|]. split; [cbn; lia|].
    split; [constructor; [cbn; lia|exact Fa]|]. split.
    + intros u Lu. rewrite (Em u Lu). cbn [map fst word_act fold_right]. apply E. apply (word_act_length m g). exact Lu.
    + intros i Hi. rewrite (Rf i Hi). cbn [fold_left snd]. rewrite (Er i Hi). reflexivity.
  - exists D, []. rewrite app_nil_r. split; [reflexivity|]. split; [exact I|]. split; [exact F|]. split; [|split; [constructor|split; [reflexivity|reflexivity]]].
    cbn [length]. symmetry. apply pos_cnt; assumption.
Qed.
End Steps.

Section Positive.
Variables (n : nat) (f : nat -> nat -> Z) (c : matrix Z) (pc : bool) (s : rootsys).
Hypothesis n32 : (n <= 32)%nat.
Hypothesis ft : finite_type n f.
Hypothesis mc : is_mx c n n f.
Hypothesis made : root_system c pc = Ok s.
Notation np := (num_pos s).
Notation rt := (root_at s).
Notation crt := (coroot_at s).
(** the positive roots *)
Definition poslist : list (list Z) := map rt (seq np np).
Lemma poslist_ok : NoDup poslist /\ (forall u, In u poslist <-> up n f u) /\ length poslist = np.
Proof.
  unfold poslist. split; [|split; [|rewrite map_length, seq_length; reflexivity]].
  - assert (Q : forall k j, (np <= j)%nat -> (j + k <= 2 * np)%nat -> NoDup (map rt (seq j k))).
    { induction k as [|k IH]; intros j Hj Hk; [constructor|]. cbn [seq map]. constructor; [|apply IH; lia]. intros I. apply in_map_iff in I. destruct I as (x & Ex & Ix). apply in_seq in Ix. assert (x = j); [|lia]. apply (rt_eq n f c pc s n32 ft mc made); [lia|lia|exact Ex]. }
    apply Q; lia.
  - intros u. rewrite in_map_iff. split.
    + intros (a & <- & I). apply in_seq in I. apply (rt_up n f c pc s n32 ft mc made). lia.
    + intros U. destruct (up_root n f u U) as [w R]. destruct (top_every n f c pc s n32 ft mc made u w R) as (a & Ha & Ea & _). exists a. split; [exact Ea|]. apply in_seq. unfold num_roots in Ha. pose proof (up_pos n f c pc s n32 ft mc made a Ha ltac:(rewrite Ea; exact U)). lia.
Qed.

Notation image := (image n f s n f).
Notation al := (al s).
Notation emb D := (comb n n (al D)).
Lemma nth_get {A} (l : list A) i d x : nth_error l i = Some x -> nth i l d = x. Proof. apply nth_error_nth. Qed.
(** the extension to all roots is a permutation *)
Lemma image_onto D b : image D -> (b < 2 * np)%nat -> exists a, (a < 2 * np)%nat /\ rt b = emb D (rt a).
Proof.
  intros I Hb. destruct I as (L & R & V). destruct (top_extend n f c pc s n32 ft mc made D L R V) as (r & _ & Lr & A). unfold num_roots in *.
  assert (ND : NoDup r).
  { rewrite (NoDup_nth r 0%nat). intros i j Hi Hj E. rewrite Lr in Hi, Hj. destruct (A i Hi) as (x & Gx & Hx & Ex). destruct (A j Hj) as (y & Gy & Hy & Ey). unfold get in *. rewrite (nth_get _ _ _ _ Gx), (nth_get _ _ _ _ Gy) in E. subst y. rewrite Ex in Ey.
    destruct (top_good n f ft) as [g1 g2]. apply (rt_eq n f c pc s n32 ft mc made i j Hi Hj). destruct (rt_len n f c pc s n32 ft mc made i Hi), (rt_len n f c pc s n32 ft mc made j Hj).
    refine (emb_inj n n (al D) (be n f s D) f _ g1 _ _ _ _ Ey); try assumption. intros p q Hp Hq. unfold be. rewrite form_dot. apply V; assumption. }
  assert (In b r). { apply (NoDup_length_incl ND (l' := seq 0 (2 * np))); [rewrite seq_length; lia| |apply in_seq; lia]. intros x Ix. destruct (In_nth r x 0%nat Ix) as (i & Hi & Ei). rewrite Lr in Hi. destruct (A i Hi) as (y & Gy & Hy & _). unfold get in Gy. rewrite (nth_get _ _ _ _ Gy) in Ei. subst y. apply in_seq. lia. }
  destruct (In_nth r b 0%nat H) as (a & Ha & Ea). rewrite Lr in Ha. exists a. split; [exact Ha|]. destruct (A a Ha) as (y & Gy & Hy & Ey). unfold get in Gy. rewrite (nth_get _ _ _ _ Gy) in Ea. subst y. exact Ey.
Qed.
Lemma positive_simple D : image D -> Forall (fun a => (np <= a)%nat) D -> forall i, (i < n)%nat -> (np <= nth i D 0 < np + n)%nat.
Proof.
  intros I Fp i Hi. pose proof I as (L & R & V). destruct (top_good n f ft) as [g1 g2]. assert (Pi : (np <= nth i D 0)%nat) by (rewrite Forall_forall in Fp; apply Fp; apply nth_In; lia). pose proof (R i Hi) as Ri.
  pose proof (rt_up n f c pc s n32 ft mc made _ (conj Pi Ri)) as U. split; [exact Pi|]. 
  assert (Pre : forall u, up n f u -> exists v, up n f v /\ u = emb D v).
  { intros u Uu. destruct (up_root n f u Uu) as [w Rw]. destruct (top_every n f c pc s n32 ft mc made u w Rw) as (b & Hb & Eb & _). destruct (image_onto D b I Hb) as (a & Ha & Ea). exists (rt a). rewrite <- Eb. split; [|exact Ea]. apply (rt_up n f c pc s n32 ft mc made). split; [|exact Ha].
    destruct (le_lt_dec np a) as [Q|Q]; [exact Q|]. exfalso. destruct (minus_ok n f c pc s n32 ft mc made a Ha) as (Hm & Em & Er & _).
    assert (Um : up n f (opp (rt a))) by (rewrite <- Er; apply (rt_up n f c pc s n32 ft mc made); lia).
    apply (opp_up n f u Uu). rewrite <- Eb, Ea, <- comb_opp. intros k. destruct (le_lt_dec n k) as [Qk|Qk]; [rewrite co_over by (rewrite comb_length; exact Qk); lia|]. rewrite co_comb by exact Qk. apply zsum_nonneg. intros j Hj. apply Z.mul_nonneg_nonneg; [apply (up_nonneg n f _ Um)|].
    pose proof (R j Hj) as Rj. apply (proj1 (top_sign n f c pc s n32 ft mc made _ Rj)). rewrite Forall_forall in Fp. apply Fp. apply nth_In. lia. }
  destruct (Z.eq_dec (height (rt (nth i D 0%nat))) 1) as [H1|H1].
  - destruct (up_height_1 n f (proj1 g1) _ U H1) as (j & Hj & Ej). destruct (simple_lt n f c pc s n32 ft mc made j Hj) as (Hp & Es & _). assert (nth i D 0%nat = (np + j)%nat); [|lia]. apply (rt_eq n f c pc s n32 ft mc made); [exact Ri|lia|congruence].
  - exfalso. pose proof (up_height n f _ U) as H0. destruct g1 as (cart & [d fd] & _). destruct (up_step n f d cart (proj1 fd) (proj1 (proj2 fd)) (proj2 (proj2 fd)) _ U ltac:(lia)) as (j & Hj & Uj).
    destruct (Pre _ Uj) as (x & Ux & Ex). destruct (Pre _ (up_simple n f j Hj)) as (y & Uy & Ey). pose proof (up_length n f x Ux) as Lx. pose proof (up_length n f y Uy) as Ly.
    assert (Eq : basis n i = plus n x y).
    { refine (emb_inj n n (al D) (be n f s D) f _ (proj1 (top_good n f ft)) _ _ _ _ _); [intros p q Hp Hq; unfold be; rewrite form_dot; apply V; assumption|apply basis_length|apply plus_length|].
      rewrite (comb_basis n n (al D) i Hi) by (apply (rt_len n f c pc s n32 ft mc made); exact Ri). destruct (rt_len n f c pc s n32 ft mc made _ Ri) as [Lr _].
      apply vec_ext; [rewrite comb_length; exact Lr|]. intros k Hk. change (al D i) with (rt (nth i D 0%nat)) in *. rewrite Lr in Hk. rewrite co_comb by exact Hk. transitivity (co (emb D x) k + co (emb D y) k).
      - rewrite <- Ex, <- Ey, co_bump by lia. rewrite co_basis by exact Hj. destruct (Nat.eqb_spec k j); lia.
      - rewrite !co_comb by exact Hk. rewrite <- zsum_add. apply zsum_ext. intros p Hp. rewrite co_plus by assumption. ring. }
    pose proof (up_height n f x Ux) as Hx. pose proof (up_height n f y Uy) as Hy. assert (Hs : height (plus n x y) = height x + height y).
    { rewrite !height_zsum, plus_length, Lx, Ly, <- zsum_add. apply zsum_ext. intros k Hk. apply co_plus; assumption. }
    rewrite <- Eq, height_basis in Hs by exact Hi. lia.
Qed.
Lemma letters_run D st : (forall i, (i < n)%nat -> (np <= nth i D 0 < np + n)%nat) -> length D = n -> Forall (fun q => (fst q < n)%nat) st -> letters s D st = Ok (map (fun q => (nth (fst q) D 0 - np)%nat) st).
Proof.
  intros H L F. induction F as [|[k a] st Hk F IH]; [reflexivity|]. cbn [letters map fst] in *. rewrite (vget_ok D k (nth k D 0%nat)) by (unfold get; apply nth_error_nth'; lia). cbn [bind]. unfold simple_index, is_pos. destruct (Nat.leb_spec np (nth k D 0%nat)) as [Q|Q]; [|pose proof (H k Hk); lia]. cbn [bind]. rewrite IH. reflexivity.
Qed.
Lemma wrt_run D : image D -> exists D' w, wrt_distinguished s D = Ok (D', w) /\ length D' = n /\ Forall (fun i => (i < n)%nat) w /\
  (forall i, (i < n)%nat -> (np <= nth i D' 0 < np + n)%nat /\ rt (nth i D 0%nat) = word_act n f w (rt (nth i D' 0%nat))) /\
  (forall i j, (i < n)%nat -> (j < n)%nat -> f (nth i D' 0 - np)%nat (nth j D' 0 - np)%nat = f i j) /\
  length w = cnt n s n poslist D.
Proof.
  intros I. destruct poslist_ok as (PN & PU & PL). unfold wrt_distinguished, to_positive_system.
  destruct (steps_run n f c pc s n32 ft mc made n f ft poslist PN PU (num_roots s) D I) with (acc := @nil (nat * nat)) as (D' & st & -> & I' & Po & Ln & Fa & Em & _).
  { transitivity (length poslist); [|rewrite PL; unfold num_roots; lia]. unfold cnt. clear. induction poslist as [|x l IH]; [cbn; lia|]. cbn. destruct (neg _); cbn; lia. }
  cbn [bind app]. pose proof I' as (L' & R' & V'). pose proof (positive_simple D' I' Po) as Sm. assert (Fs : Forall (fun q => (fst q < n)%nat) st) by (eapply Forall_impl; [|exact Fa]; intros q Q; apply Q).
  rewrite (letters_run D' (rev st) Sm L') by (apply Forall_rev; exact Fs). cbn [bind]. exists D', (map (fun q => (nth (fst q) D' 0 - np)%nat) (rev st)). split; [reflexivity|]. split; [exact L'|].
  assert (Sr : forall i, (i < n)%nat -> rt (nth i D' 0%nat) = basis n (nth i D' 0 - np)%nat /\ crt (nth i D' 0%nat) = basis n (nth i D' 0 - np)%nat).
  { intros i Hi. destruct (simple_lt n f c pc s n32 ft mc made (nth i D' 0 - np)%nat ltac:(pose proof (Sm i Hi); lia)) as (_ & E1 & E2). replace (np + (nth i D' 0 - np))%nat with (nth i D' 0)%nat in E1, E2 by (pose proof (Sm i Hi); lia). split; assumption. }
  split; [apply Forall_forall; intros x J; apply in_map_iff in J; destruct J as (q & <- & Iq); apply in_rev in Iq; rewrite Forall_forall in Fs; pose proof (Sm _ (Fs q Iq)); lia|].
  split; [|split; [|rewrite map_length, rev_length; exact Ln]].
  - intros i Hi. split; [apply Sm; exact Hi|]. destruct (top_good n f ft) as [g1 g2].
    (* the image of sreflect under the final map *)
    assert (Sw : forall k u, (k < n)%nat -> length u = n -> emb D' (sreflect n f k u) = sreflect n f (nth k D' 0 - np)%nat (emb D' u)).
    { intros k u Hk Lu. rewrite (emb_sr n n (al D') (be n f s D') f (fun j Hj => proj1 (rt_len n f c pc s n32 ft mc made _ (R' j Hj))) (fun p q Hp Hq => eq_trans (form_dot n f _ _) (V' p q Hp Hq)) k u Hk Lu). unfold be, RsfSteps.al. rewrite form_reflect. destruct (Sr k Hk) as [-> ->]. apply reflect_simple; [pose proof (Sm k Hk); lia|apply comb_length]. }
    assert (Ww : forall l u, Forall (fun q => (fst q < n)%nat) l -> length u = n -> emb D' (word_act n f (map fst l) u) = word_act n f (map (fun q : nat * nat => (nth (fst q) D' 0 - np)%nat) l) (emb D' u)).
    { intros l u Fl Lu. induction Fl as [|q l Hq Fl IH]; [reflexivity|]. cbn [map word_act fold_right]. rewrite Sw; [|exact Hq|apply (word_act_length n f); exact Lu]. f_equal. exact IH. }
    assert (Bk : forall l u, Forall (fun q => (q < n)%nat) l -> length u = n -> word_act n f l (word_act n f (rev l) u) = u).
    { intros l. induction l as [|q l IH]; intros u Fl Lu; [reflexivity|]. pose proof (Forall_inv Fl) as Hq. pose proof (Forall_inv_tail Fl) as Fl'. cbn [rev]. unfold word_act at 2. rewrite fold_right_app. cbn [fold_right]. change (sreflect n f q (word_act n f l (word_act n f (rev l) (sreflect n f q u))) = u).
      rewrite IH by (try exact Fl'; rewrite sr_length; exact Lu). apply (sr_sr n f (proj1 g1)); assumption. }
    transitivity (emb D (basis n i)); [symmetry; apply (comb_basis n n (al D) i Hi); apply (rt_len n f c pc s n32 ft mc made); apply I; exact Hi|].
    rewrite <- (Bk (map fst st) (basis n i)) by (try apply basis_length; apply Forall_forall; intros x J; apply in_map_iff in J; destruct J as (q & <- & Iq); rewrite Forall_forall in Fs; apply Fs; exact Iq).
    rewrite <- Em by (apply (word_act_length n f); apply basis_length). rewrite <- map_rev. rewrite (Ww (rev st)) by (try apply basis_length; apply Forall_rev; exact Fs). f_equal. apply (comb_basis n n (al D') i Hi). apply (rt_len n f c pc s n32 ft mc made). apply R'. exact Hi.
  - intros i j Hi Hj. rewrite <- (V' i j Hi Hj). destruct (Sr i Hi) as [-> _]. destruct (Sr j Hj) as [_ ->]. pose proof (Sm i Hi). pose proof (Sm j Hj). rewrite value_basis_r by lia. rewrite pair_basis by lia. reflexivity.
Qed.
End Positive.
