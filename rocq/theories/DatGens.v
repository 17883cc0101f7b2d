(** The versions of factor_dominant and factor_codominant for the simple roots of a subsystem. *)

From Coq Require Import List Arith ZArith Bool Lia Permutation Sorted.
From Verif Require Import VecModel VecProofs RunModel RunProofs MatModel MatSpec MatProofs MatLin MatOps MatProps LatModel SizeModel LieTypeModel LieTypeSpec
  RootModel RootSpec RootBase RootMath RootForm RootFin RootCo RootAcc RootSys RootUniq RootOrder RootBasis RootTop RootProps DatModel DatSpec DatMath DatProofs DatOps DatFactor.
Import ListNotations.
Local Open Scope Z_scope.

(** ** the reflection for a simple root of the subsystem permutes the other positive members *)
Section Sub.
Variables (n : nat) (f : nat -> nat -> Z) (c : matrix Z) (pc : bool) (s : rootsys).
Hypothesis bt : built n f c pc s.
Notation np := (num_pos s).
Variable B : bset.
Hypothesis BL : length B = num_roots s.
Hypothesis BR : forall a b d, bmem B a = true -> bmem B b = true -> reflected s a b = Ok d -> bmem B d = true.
Variable l : list nat.
Hypothesis Bl : simple_basis s B = Ok l.
Let n32 : (n <= 32)%nat := proj1 bt.
Let ft : finite_type n f := proj1 (proj2 bt).
Let mc : is_mx c n n f := proj1 (proj2 (proj2 bt)).
Let made : root_system c pc = Ok s := proj2 (proj2 (proj2 bt)).
Let gd : good n f := proj1 (top_good n f ft).
Notation rt := (root_at s).
Notation crt := (coroot_at s).
Lemma g_lt a : bmem B a = true -> (a < num_roots s)%nat.
Proof. intros H. destruct (le_lt_dec (num_roots s) a) as [Q|Q]; [|exact Q]. unfold bmem in H. rewrite nth_overflow in H by lia. discriminate. Qed.
Lemma g_rc a : (a < num_roots s)%nat -> root_coroot n f (rt a) (crt a).
Proof. intros H. apply (top_numbers n f c pc s n32 ft mc made a H). Qed.
Lemma g_len a : (a < num_roots s)%nat -> length (rt a) = n /\ length (crt a) = n.
Proof.
  intros H. pose proof (g_rc a H) as Q. split; [apply (root_length n f); exists (crt a); exact Q|]. apply (root_length n (flip f)). exists (rt a). apply rc_flip. exact Q.
Qed.
Lemma g_l a : In a l -> bmem B a = true /\ (np <= a)%nat.
Proof.
  intros I. destruct (top_basis n f c pc s n32 ft mc made B BL BR) as (l' & E & _ & Q). rewrite Bl in E. injection E as <-. apply Q in I. split; apply I.
Qed.
Lemma g_height a : (np <= a < num_roots s)%nat -> 0 < height (rt a).
Proof.
  intros [L H]. pose proof (proj1 (top_sign n f c pc s n32 ft mc made a H) L) as N. destruct (g_len a H) as [Ln _].
  destruct (Z.le_gt_cases (height (rt a)) 0) as [Q|Q]; [|exact Q]. exfalso.
  assert (Z0 : forall k, co (rt a) k = 0).
  { rewrite height_zsum, Ln in Q. intros k. destruct (le_lt_dec n k) as [G|G]; [apply co_over; lia|].
    pose proof (N k) as Nk. pose proof (zsum_ge n (co (rt a)) k G (fun i _ => N i)). lia. }
  pose proof (rc_value n f (proj1 gd) _ _ (g_rc a H)) as T. unfold value in T. rewrite zsum_zero in T; [lia|]. intros i Hi. apply zsum_zero. intros j Hj. rewrite Z0. lia.
Qed.
(** a sum of simple roots, seen by the coroot of one of them and by the height *)
Notation count a ms := (Z.of_nat (count_occ Nat.eq_dec ms a)).
Lemma g_bounds a ms : In a l -> incl ms l ->
  length (vsum n (map rt ms)) = n /\ value n f (vsum n (map rt ms)) (crt a) <= 2 * count a ms /\
  count a ms * height (rt a) + (Z.of_nat (length ms) - count a ms) <= height (vsum n (map rt ms)).
Proof.
  intros Ia. destruct (top_basis_sums n f c pc s n32 ft mc made B BL BR) as (l' & E & _ & Ob). rewrite Bl in E. injection E as <-.
  pose proof (g_lt a (proj1 (g_l a Ia))) as Ha.
  induction ms as [|x ms IH]; intros I.
  - cbn. split; [apply repeat_length|]. split.
    + unfold value. rewrite zsum_zero; [lia|]. intros i Hi. apply zsum_zero. intros j Hj. unfold co at 1. rewrite nth_repeat. lia.
    + rewrite height_zsum, repeat_length, zsum_zero; [lia|]. intros k Hk. unfold co. apply nth_repeat.
  - destruct (IH (fun y Iy => I y (or_intror Iy))) as (L & V & H). pose proof (I x (or_introl eq_refl)) as Ix. destruct (g_l x Ix) as [Mx Px]. pose proof (g_lt x Mx) as Hx. destruct (g_len x Hx) as [Lx _].
    cbn [map vsum fold_right]. fold (vsum n (map rt ms)). split; [apply plus_length|]. rewrite value_plus_l, height_plus by assumption. cbn [count_occ length].
    pose proof (g_height x (conj Px Hx)). destruct (Nat.eq_dec x a) as [->|N].
    + rewrite (rc_value n f (proj1 gd) _ _ (g_rc a Ha)). nia.
    + pose proof (Ob x a Ix Ia N). nia.
Qed.
Lemma count_all a (ms : list nat) : count a ms = Z.of_nat (length ms) -> forall x, In x ms -> x = a.
Proof.
  induction ms as [|y ms IH]; intros H x [].
  - subst y. cbn [count_occ length] in H. destruct (Nat.eq_dec x a) as [E|E]; [exact E|]. pose proof (count_occ_bound Nat.eq_dec a ms). lia.
  - cbn [count_occ length] in H. pose proof (count_occ_bound Nat.eq_dec a ms). destruct (Nat.eq_dec y a); [|lia]. apply IH; [lia|exact H0].
Qed.
Lemma multiple_sum a ms : (a < num_roots s)%nat -> (forall x, In x ms -> x = a) -> forall k, co (vsum n (map rt ms)) k = Z.of_nat (length ms) * co (rt a) k.
Proof.
  intros Ha. destruct (g_len a Ha) as [La _]. induction ms as [|x ms IH]; intros H k.
  - cbn [map vsum fold_right length Z.of_nat]. unfold co. rewrite nth_repeat. lia.
  - cbn [map vsum fold_right length]. fold (vsum n (map rt ms)). rewrite (H x (or_introl eq_refl)). destruct (le_lt_dec n k) as [Q|Q]; [rewrite !co_over; [lia| |]; rewrite ?plus_length; lia|].
    assert (Lv : length (vsum n (map rt ms)) = n) by (destruct ms; [apply repeat_length|apply plus_length]).
    rewrite co_plus by assumption. rewrite IH by (intros y I; apply H; right; exact I). lia.
Qed.
Lemma value_multiple u v w m : (forall k, co u k = m * co v k) -> value n f u w = m * value n f v w.
Proof.
  intros H. unfold value. rewrite <- zsum_mul_l. apply zsum_ext. intros i Hi. rewrite <- zsum_mul_l. apply zsum_ext. intros j Hj. rewrite H. lia.
Qed.
Lemma pos_inj a b : (np <= a < num_roots s)%nat -> (np <= b < num_roots s)%nat -> rt a = rt b -> a = b.
Proof.
  intros Ha Hb E. destruct (top_minus n f c pc s n32 ft mc made a ltac:(lia)) as (_ & M & _).
  apply (top_inj n f c pc s n32 ft mc made a b); [lia|lia|left; exact E].
Qed.
Lemma g_minus a : bmem B a = true -> bmem B (minus_nr np a) = true.
Proof.
  intros M. pose proof (g_lt a M) as Ha. destruct (top_reflected n f c pc s n32 ft mc made a a Ha Ha) as (d & E & Hd & R & _). destruct (top_minus n f c pc s n32 ft mc made a Ha) as (Hm & Em & _).
  replace (minus_nr np a) with d; [apply (BR a a d M M E)|]. apply (top_inj n f c pc s n32 ft mc made); [exact Hd|exact Hm|]. left. rewrite R, Em. apply (reflect_self n f (proj1 gd)). apply g_rc. exact Ha.
Qed.
Lemma g_keeps a b d : In a l -> bmem B b = true -> (np <= b)%nat -> b <> a -> reflected s a b = Ok d -> bmem B d = true /\ (np <= d < num_roots s)%nat /\ d <> a.
Proof.
  intros Ia Mb Pb Nb E. destruct (g_l a Ia) as [Ma Pa]. pose proof (g_lt a Ma) as Ha. pose proof (g_lt b Mb) as Hb.
  destruct (top_reflected n f c pc s n32 ft mc made a b Ha Hb) as (d' & E' & Hd & R & _). rewrite E in E'. injection E' as <-. pose proof (BR a b d Ma Mb E) as Md. split; [exact Md|].
  destruct (top_basis_sums n f c pc s n32 ft mc made B BL BR) as (l' & El & Su & _). rewrite Bl in El. injection El as <-.
  destruct (g_len a Ha) as [La _]. destruct (g_len b Hb) as [Lb _]. destruct (g_len d Hd) as [Ld _].
  (* no positive member but [a] is a multiple of it *)
  assert (Mult : forall x ms, (np <= x < num_roots s)%nat -> rt x = vsum n (map rt ms) -> (forall y, In y ms -> y = a) -> x = a).
  { intros x ms Hx Ex Al. pose proof (multiple_sum a ms Ha Al) as Mu. rewrite <- Ex in Mu.
    pose proof (value_multiple _ _ (crt x) _ Mu) as V. rewrite (rc_value n f (proj1 gd) _ _ (g_rc x ltac:(lia))) in V.
    assert (Cs : Z.of_nat (length ms) = 1 \/ Z.of_nat (length ms) = 2) by (assert (Dv : (Z.of_nat (length ms) | 2)) by (exists (value n f (rt a) (crt x)); lia); apply Z.divide_pos_le in Dv; [|lia]; destruct (Z.eq_dec (Z.of_nat (length ms)) 0) as [Z0|Z0]; [rewrite Z0 in V; lia|lia]).
    destruct Cs as [C1|C2].
    - apply pos_inj; [exact Hx|lia|]. apply vec_ext; [rewrite La; apply (g_len x); lia|]. intros k _. rewrite Mu, C1. lia.
    - exfalso. destruct (Nat.eq_dec n 0) as [Z0|N0].
      + pose proof (g_height a ltac:(lia)) as Q. rewrite height_zsum, La, Z0 in Q. cbn in Q. lia.
      + apply (no_double n f ltac:(lia) gd (rt a) (crt a) (rt x) (g_rc a Ha)); [exists (crt x); apply g_rc; lia|]. intros k. rewrite Mu, C2. reflexivity. }
  split.
  - split; [|exact Hd]. destruct (le_lt_dec np d) as [Q|Q]; [exact Q|]. exfalso. pose proof (g_minus d Md) as Mm. destruct (top_minus n f c pc s n32 ft mc made d Hd) as (Hm & Em & _).
    destruct (Su b Mb Pb) as (ms & I1 & E1). destruct (Su (minus_nr np d) Mm ltac:(unfold minus_nr in *; unfold num_roots in *; lia)) as (ms' & I2 & E2).
    destruct (g_bounds a ms Ia I1) as (_ & V1 & H1). destruct (g_bounds a ms' Ia I2) as (_ & V2 & H2). rewrite <- E1 in V1, H1. rewrite <- E2, Em in V2, H2. rewrite R in V2, H2.
    unfold reflect in V2, H2. rewrite value_opp_l, value_away_l, (rc_value n f (proj1 gd) _ _ (g_rc a Ha)) in V2 by assumption. rewrite height_opp, height_away in H2 by assumption.
    set (cc := value n f (rt b) (crt a)) in *. pose proof (g_height a ltac:(lia)) as Pos. pose proof (count_occ_bound Nat.eq_dec a ms). pose proof (count_occ_bound Nat.eq_dec a ms').
    assert (Al : count a ms = Z.of_nat (length ms)) by nia. apply Nb. apply (Mult b ms); [lia|exact E1|]. apply count_all. exact Al.
  - intros ->. apply Nb.
    (* then b would be the opposite of a *)
    exfalso. pose proof (f_equal (fun u => value n f u (crt a)) R) as V. cbv beta in V. unfold reflect in V. rewrite value_away_l, (rc_value n f (proj1 gd) _ _ (g_rc a Ha)) in V by assumption.
    pose proof (f_equal height R) as H. unfold reflect in H. rewrite height_away in H by assumption. pose proof (g_height a ltac:(lia)). pose proof (g_height b ltac:(lia)). nia.
Qed.
End Sub.

Section Gens.
Variable fits : Z -> bool.
Notation R := (zarith fits).
Notation E := (overflows fits).
Variables (r n : nat) (A B : nat -> nat -> Z) (p : predatum) (d : datum).
Notation al := (fcol r A).
Notation be := (fcol r B).
Notation C := (fun i j => dot r (al i) (be j)).
Hypothesis K : datum_ok r n A B p d.
Notation s := (d_sys d).
Notation np := (num_pos (d_sys d)).
Notation rt a := (comb r n al (root_at s a)).
Notation crt a := (comb r n be (coroot_at s a)).
Variable S : bset.
Hypothesis SL : length S = num_roots s.
Hypothesis SR : forall a b d, bmem S a = true -> bmem S b = true -> reflected s a b = Ok d -> bmem S d = true.
Variable g : list nat.
Hypothesis Sg : simple_basis s S = Ok g.
Definition pos_members : list nat := filter (bmem S) (seq np np).
Definition sub_neg (v : list Z) : nat := length (filter (fun b => dot r v (crt b) <? 0) pos_members).
Definition sub_coneg (v : list Z) : nat := length (filter (fun b => dot r v (rt b) <? 0) pos_members).
Definition moved (a b : nat) : nat := match reflected s a b with Ok x => x | Fail _ => b end.
Let La : forall i, (i < n)%nat -> length (al i) = r. Proof. intros. apply fcol_length. Qed.
Let Lb : forall i, (i < n)%nat -> length (be i) = r. Proof. intros. apply fcol_length. Qed.
Lemma members_in b : In b pos_members <-> bmem S b = true /\ (np <= b < num_roots s)%nat.
Proof. unfold pos_members. rewrite filter_In, in_seq. unfold num_roots. split; [intros [H Q]; split; [exact Q|lia]|intros [Q H]; split; [lia|exact Q]]. Qed.
Lemma moved_at a b : (a < num_roots s)%nat -> (b < num_roots s)%nat -> (moved a b < num_roots s)%nat /\ reflected s a b = Ok (moved a b) /\
  rt (moved a b) = reflect_at r (rt a) (crt a) (rt b) /\ crt (moved a b) = reflect_at r (crt a) (rt a) (crt b) /\ moved a (moved a b) = b.
Proof.
  intros Ha Hb. destruct (k_sys _ _ _ _ _ _ K) as [c bt]. pose proof bt as (n32 & ft & mc & made).
  destruct (top_reflected n C c _ s n32 ft mc made a b Ha Hb) as (x & Ex & Hx & R1 & R2). unfold moved. rewrite Ex.
  destruct (g_len n C c _ s bt a Ha) as [L1 L2]. destruct (g_len n C c _ s bt b Hb) as [L3 L4].
  split; [exact Hx|]. split; [reflexivity|]. split; [|split].
  - rewrite R1. unfold reflect. rewrite comb_away by assumption. unfold reflect_at. f_equal. symmetry. apply (dot_emb_coemb r n al be C); intros; reflexivity.
  - rewrite R2. unfold reflect. rewrite comb_away by assumption. unfold reflect_at. f_equal. symmetry. apply (dot_emb_coemb r n be al (flip C)); intros; apply dot_comm.
  - destruct (top_reflected n C c _ s n32 ft mc made a x Ha Hx) as (y & Ey & Hy & Q1 & _). rewrite Ey. apply (top_inj n C c _ s n32 ft mc made); [exact Hy|exact Hb|]. left. rewrite Q1, R1. apply (reflect_reflect n C (proj1 (proj1 (k_good r n A B p d K)))); [apply (g_rc n C c _ s bt a Ha)|exact L3].
Qed.
Lemma split_members a : In a g -> exists Q, Permutation pos_members (a :: Q) /\ Permutation (map (moved a) Q) Q /\ (forall b, In b Q -> (b < num_roots s)%nat).
Proof.
  intros Ia. destruct (k_sys _ _ _ _ _ _ K) as [c bt]. destruct (g_l n C c _ s bt S SL SR g Sg a Ia) as [Ma Pa]. pose proof (g_lt n C c _ s bt S SL a Ma) as Ha.
  destruct (in_split a pos_members) as (l1 & l2 & El); [apply members_in; auto|]. exists (l1 ++ l2).
  assert (Pm : Permutation pos_members (a :: (l1 ++ l2))) by (rewrite El; symmetry; apply Permutation_middle). split; [exact Pm|].
  assert (ND : NoDup pos_members) by (apply NoDup_filter; apply seq_NoDup).
  assert (N2 : NoDup (a :: (l1 ++ l2))) by (apply (Permutation_NoDup Pm ND)). inversion N2 as [|? ? NI NQ]; subst.
  assert (IQ : forall b, In b (l1 ++ l2) <-> (bmem S b = true /\ (np <= b < num_roots s)%nat) /\ b <> a).
  { intros b. rewrite <- members_in. split.
    - intros I. split; [apply (Permutation_in _ (Permutation_sym Pm)); right; exact I|]. intros ->. apply NI; exact I.
    - intros [I N]. apply (Permutation_in _ Pm) in I. destruct I as [I|I]; [congruence|exact I]. }
  assert (Cl : forall b, In b (l1 ++ l2) -> In (moved a b) (l1 ++ l2)).
  { intros b I. apply IQ in I. destruct I as [[Mb Hb] N]. destruct (moved_at a b Ha ltac:(lia)) as (Hx & Ex & _). apply IQ. destruct (g_keeps n C c _ s bt S SL SR g Sg a b _ Ia Mb ltac:(lia) N Ex) as (Q1 & Q2 & Q3). auto. }
  assert (Inv : forall b, In b (l1 ++ l2) -> moved a (moved a b) = b).
  { intros b I. apply IQ in I. apply (moved_at a b Ha). lia. }
  split; [|intros b I; apply IQ in I; lia]. apply NoDup_Permutation; [|exact NQ|].
  - assert (G : forall l, NoDup l -> (forall w, In w l -> moved a (moved a w) = w) -> NoDup (map (moved a) l)).
    { intros l NDl. induction NDl as [|x l NX NDl IH]; intros Kl; [constructor|]. cbn. constructor; [|apply IH; intros w I; apply Kl; right; exact I].
      intros I. apply in_map_iff in I. destruct I as (y & Ey & Iy). apply NX. rewrite <- (Kl x (or_introl eq_refl)), <- Ey, (Kl y (or_intror Iy)). exact Iy. }
    apply G; assumption.
  - intros w. split.
    + intros I. apply in_map_iff in I. destruct I as (y & <- & Iy). apply Cl; exact Iy.
    + intros I. apply in_map_iff. exists (moved a w). split; [apply Inv; exact I|apply Cl; exact I].
Qed.
Lemma g_lt_roots a : In a g -> (a < num_roots s)%nat.
Proof. intros Ia. destruct (k_sys _ _ _ _ _ _ K) as [c bt]. apply (g_lt n C c _ s bt S SL a). apply (g_l n C c _ s bt S SL SR g Sg a Ia). Qed.
Lemma sub_step a v : In a g -> length v = r -> dot r v (crt a) < 0 -> sub_neg v = Datatypes.S (sub_neg (reflect_at r (rt a) (crt a) v)).
Proof.
  intros Ia L Ng. pose proof (g_lt_roots a Ia) as Ha. destruct (split_members a Ia) as (Q & Pm & Ps & LQ). unfold sub_neg. rewrite !(filter_perm _ _ _ Pm). cbn [filter].
  rewrite (proj2 (Z.ltb_lt _ _) Ng). pose proof (pairing_2 r n A B p d K a Ha) as T2.
  assert (E0 : dot r (reflect_at r (rt a) (crt a) v) (crt a) = - dot r v (crt a)) by (unfold reflect_at; rewrite dot_away by (auto using comb_length); rewrite T2; lia).
  rewrite E0. replace (- dot r v (crt a) <? 0) with false by (symmetry; apply Z.ltb_ge; lia). cbn [length]. f_equal.
  rewrite <- (filter_perm _ _ _ Ps), filter_map_length. f_equal. apply filter_ext_in. intros b I. destruct (moved_at a b Ha (LQ b I)) as (_ & _ & _ & Eb & _). rewrite Eb.
  rewrite <- dot_reflect by (auto using comb_length). reflexivity.
Qed.
Lemma sub_costep a v : In a g -> length v = r -> dot r v (rt a) < 0 -> sub_coneg v = Datatypes.S (sub_coneg (reflect_at r (crt a) (rt a) v)).
Proof.
  intros Ia L Ng. pose proof (g_lt_roots a Ia) as Ha. destruct (split_members a Ia) as (Q & Pm & Ps & LQ). unfold sub_coneg. rewrite !(filter_perm _ _ _ Pm). cbn [filter].
  rewrite (proj2 (Z.ltb_lt _ _) Ng). pose proof (pairing_2 r n A B p d K a Ha) as T2. rewrite dot_comm in T2.
  assert (E0 : dot r (reflect_at r (crt a) (rt a) v) (rt a) = - dot r v (rt a)) by (unfold reflect_at; rewrite dot_away by (auto using comb_length); rewrite T2; lia).
  rewrite E0. replace (- dot r v (rt a) <? 0) with false by (symmetry; apply Z.ltb_ge; lia). cbn [length]. f_equal.
  rewrite <- (filter_perm _ _ _ Ps), filter_map_length. f_equal. apply filter_ext_in. intros b I. destruct (moved_at a b Ha (LQ b I)) as (_ & _ & Eb & _). rewrite Eb.
  rewrite <- dot_reflect by (auto using comb_length). reflexivity.
Qed.
Lemma filter_le {T} (q : T -> bool) l : (length (filter q l) <= length l)%nat.
Proof. induction l as [|x l IH]; [cbn; lia|]. cbn. destruct (q x); cbn; lia. Qed.
Lemma sub_le v : (sub_neg v <= np)%nat /\ (sub_coneg v <= np)%nat.
Proof.
  assert (Q : (length pos_members <= np)%nat) by (unfold pos_members; pose proof (filter_le (bmem S) (seq np np)); rewrite seq_length in *; lia).
  split; (eapply Nat.le_trans; [apply filter_le|exact Q]).
Qed.
(** the roots and coroots of the list *)
Notation ga i := (rt (nth i g 0%nat)).
Notation gb i := (crt (nth i g 0%nat)).
Lemma g_nth i : (i < length g)%nat -> In (nth i g 0%nat) g /\ vget g i = Ok (nth i g 0%nat).
Proof. intros H. split; [apply nth_In; exact H|]. apply vget_ok. apply get_nth. exact H. Qed.
Theorem factor_dominant_gens_ok v : length v = r ->
  gives (factor_dominant_gens fits idZ d g v) (fun q => length (snd q) = r /\ dominant r (length g) (fun i => gb i) (snd q) /\ Forall (fun i => (i < length g)%nat) (fst q) /\
    act_by r (fun i => ga i) (fun i => gb i) (fst q) (snd q) = v) E.
Proof.
  intros L. unfold factor_dominant_gens. eapply gives_mono.
  - apply (factor_gen E r (length g) (fun i => ga i) (fun i => gb i) sub_neg) with (back := fun w => w).
    + intros i x Hi Lx Ng. apply sub_step; [apply g_nth; exact Hi|exact Lx|exact Ng].
    + intros. apply comb_length.
    + intros i Hi. apply (pairing_2 r n A B p d K). apply g_lt_roots. apply g_nth. exact Hi.
    + intros x i Lx Hi. destruct (g_nth i Hi) as [Ii ->]. cbn [bind]. rewrite (proj2 (d_root_run r n A B p d K _ (g_lt_roots _ Ii))). cbn [bind]. eapply gives_bind; [apply (dot_into_run fits r); [exact Lx|apply comb_length]|]. intros c <-. cbn. apply Z.ltb_lt.
    + intros x i Lx Hi. destruct (g_nth i Hi) as [Ii ->]. cbn [bind]. eapply gives_mono; [apply (reflect_run fits r n A B p d K _ x 0 (g_lt_roots _ Ii) Lx)|]. intros y <-. unfold reflect_at. f_equal. lia.
    + reflexivity.
    + unfold d_npos. pose proof (proj1 (sub_le v)). lia.
    + exact L.
    + constructor.
  - intros q (Q1 & Q2 & Q3 & _ & Q5). auto.
Qed.
Theorem factor_codominant_gens_ok v : length v = r ->
  gives (factor_codominant_gens fits idZ d g v) (fun q => length (snd q) = r /\ dominant r (length g) (fun i => ga i) (snd q) /\ Forall (fun i => (i < length g)%nat) (fst q) /\
    act_by r (fun i => gb i) (fun i => ga i) (rev (fst q)) (snd q) = v) E.
Proof.
  intros L. unfold factor_codominant_gens. eapply gives_mono.
  - apply (factor_gen E r (length g) (fun i => gb i) (fun i => ga i) sub_coneg) with (back := @rev nat).
    + intros i x Hi Lx Ng. apply sub_costep; [apply g_nth; exact Hi|exact Lx|exact Ng].
    + intros. apply comb_length.
    + intros i Hi. rewrite dot_comm. apply (pairing_2 r n A B p d K). apply g_lt_roots. apply g_nth. exact Hi.
    + intros x i Lx Hi. destruct (g_nth i Hi) as [Ii ->]. cbn [bind]. rewrite (proj1 (d_root_run r n A B p d K _ (g_lt_roots _ Ii))). cbn [bind]. eapply gives_bind; [apply (dot_into_run fits r); [exact Lx|apply comb_length]|]. intros c <-. cbn. apply Z.ltb_lt.
    + intros x i Lx Hi. destruct (g_nth i Hi) as [Ii ->]. cbn [bind]. eapply gives_mono; [apply (reflect_run fits r n A B p d K _ x 0 (g_lt_roots _ Ii) Lx)|]. intros y <-. unfold reflect_at. rewrite dot_comm. f_equal. lia.
    + reflexivity.
    + unfold d_npos. pose proof (proj2 (sub_le v)). lia.
    + exact L.
    + constructor.
  - intros q (Q1 & Q2 & Q3 & _ & Q5). split; [exact Q1|]. split; [exact Q2|]. split; [|exact Q5]. rewrite <- (rev_involutive (fst q)). apply Forall_rev. exact Q3.
Qed.
End Gens.
