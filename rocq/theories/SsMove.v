(** The image of a subsystem under a Weyl group element. *)

From Coq Require Import List Arith ZArith Bool Lia Permutation Sorted.
From Verif Require Import VecModel VecProofs RunModel RunProofs MatModel MatSpec MatProofs MatLin LatModel LieTypeModel LieTypeSpec DynkinModel DynShape
  RootModel RootSpec RootBase RootMath RootForm RootFin RootCo RootAcc RootSys RootUniq RootExt RootOrder RootBasis RootTop RootProps RsfBase DatModel DatSpec DatMath DatGens DatProps DatProps2
  ClsMain ClsSub SsModel SsPath SsProofs.
Import ListNotations.
Local Open Scope Z_scope.

(** ** sorting *)
Lemma insert_perm x l : Permutation (sorted_insert x l) (x :: l).
Proof. induction l as [|y l IH]; cbn; [reflexivity|]. destruct (x <=? y)%nat; [reflexivity|]. rewrite IH. apply perm_swap. Qed.
Lemma sort_perm l : Permutation (sort_list l) l.
Proof. induction l as [|x l IH]; cbn; [reflexivity|]. rewrite insert_perm, IH. reflexivity. Qed.
Lemma insert_sorted x l : StronglySorted le l -> StronglySorted le (sorted_insert x l).
Proof.
  intros H. induction H as [|y l H IH F]; cbn; [constructor; constructor|]. destruct (Nat.leb_spec x y) as [L|L].
  - constructor; [constructor; assumption|]. constructor; [exact L|]. eapply Forall_impl; [|exact F]. cbn. lia.
  - constructor; [exact IH|]. apply Forall_forall. intros z I. apply (Permutation_in _ (insert_perm x l)) in I. destruct I as [<-|I]; [lia|]. rewrite Forall_forall in F. apply F. exact I.
Qed.
Lemma sort_sorted l : StronglySorted le (sort_list l).
Proof. induction l as [|x l IH]; cbn; [constructor|]. apply insert_sorted. exact IH. Qed.
Lemma sort_strict l : NoDup l -> StronglySorted lt (sort_list l).
Proof.
  intros ND. pose proof (Permutation_NoDup (Permutation_sym (sort_perm l)) ND) as N. pose proof (sort_sorted l) as S. induction S as [|x t S IH F]; [constructor|]. inversion N as [|? ? Nx Nt]; subst. constructor; [apply IH; exact Nt|].
  apply Forall_forall. intros y I. rewrite Forall_forall in F. specialize (F y I). assert (x <> y) by congruence. lia.
Qed.
Lemma plus_away n v w : length v = n -> length w = n -> plus n v w = away n v (-1) w.
Proof. intros Lv Lw. apply vec_ext; [rewrite plus_length, away_length; reflexivity|]. intros k _. rewrite co_plus, co_away by assumption. lia. Qed.

Section Move.
Variables (n : nat) (f : nat -> nat -> Z) (c : matrix Z) (pc : bool) (s : rootsys).
Hypothesis bt : built n f c pc s.
Let n32 : (n <= 32)%nat := proj1 bt.
Let ft : finite_type n f := proj1 (proj2 bt).
Let mc : is_mx c n n f := proj1 (proj2 (proj2 bt)).
Let made : root_system c pc = Ok s := proj2 (proj2 (proj2 bt)).
Let gd : good n f := proj1 (top_good n f ft).
Notation np := (num_pos s).
Notation rt := (root_at s).
Notation crt := (coroot_at s).
Variable ww : list nat.
Hypothesis W : Forall (fun i => (i < n)%nat) ww.

Lemma word_away v k u : length v = n -> length u = n -> word_act n f ww (away n v k u) = away n (word_act n f ww v) k (word_act n f ww u).
Proof.
  intros Lv Lu. induction W as [|i w Hi F IH]; [reflexivity|]. specialize (IH F). cbn [word_act fold_right]. fold (word_act n f w (away n v k u)) (word_act n f w v) (word_act n f w u). rewrite IH. apply sr_away; [exact Hi| |]; rewrite RootExt.word_act_length; assumption.
Qed.
Lemma word_plus v u : length v = n -> length u = n -> word_act n f ww (plus n v u) = plus n (word_act n f ww v) (word_act n f ww u).
Proof. intros Lv Lu. rewrite plus_away by assumption. rewrite word_away by assumption. symmetry. apply plus_away; rewrite RootExt.word_act_length; assumption. Qed.
Lemma word_reflect r k v : length r = n -> length k = n -> length v = n -> word_act n f ww (reflect n f r k v) = reflect n f (word_act n f ww r) (word_act n (flip f) ww k) (word_act n f ww v).
Proof.
  intros Lr Lk Lv. induction W as [|i w Hi F IH]; [reflexivity|]. specialize (IH F). cbn [word_act fold_right].
  fold (word_act n f w (reflect n f r k v)) (word_act n f w r) (word_act n (flip f) w k) (word_act n f w v). rewrite IH.
  rewrite (reflect_conj n f (proj1 gd)) by (try assumption; rewrite ?sr_length, RootExt.word_act_length; assumption). rewrite (sr_sr n f (proj1 gd)) by (try assumption; rewrite RootExt.word_act_length; assumption). reflexivity.
Qed.
Notation mvw := (mv s ww).
Lemma mvw_ok a : (a < num_roots s)%nat -> (mvw a < num_roots s)%nat /\ rt (mvw a) = word_act n f ww (rt a) /\ crt (mvw a) = word_act n (flip f) ww (crt a).
Proof. intros H. apply (mv_ok n f c pc s n32 ft mc made ww a W H). Qed.
Lemma perm_mv a : (a < num_roots s)%nat -> permuted_left s ww a = Ok (mvw a).
Proof.
  intros H. destruct (proj1 (top_permuted n f c pc s n32 ft mc made ww a W H)) as (b & -> & Hb & E). f_equal. destruct (mvw_ok a H) as (H1 & E1 & _). apply (top_inj n f c pc s n32 ft mc made); [exact Hb|exact H1|]. left. congruence.
Qed.
Lemma word_inj v u : length v = n -> length u = n -> word_act n f ww v = word_act n f ww u -> v = u.
Proof.
  intros Lv Lu. induction W as [|i w Hi F IH]; [auto|]. specialize (IH F). cbn [word_act fold_right]. fold (word_act n f w v) (word_act n f w u). intros E. apply IH.
  rewrite <- (sr_sr n f (proj1 gd) i (word_act n f w v)), E by (try assumption; rewrite RootExt.word_act_length; assumption). apply (sr_sr n f (proj1 gd)); [exact Hi|]. rewrite RootExt.word_act_length; assumption.
Qed.
Lemma len a : (a < num_roots s)%nat -> length (rt a) = n /\ length (crt a) = n.
Proof. apply (g_len n f c pc s bt). Qed.
Lemma mvw_inj a b : (a < num_roots s)%nat -> (b < num_roots s)%nat -> mvw a = mvw b -> a = b.
Proof.
  intros Ha Hb E. apply (top_inj n f c pc s n32 ft mc made a b Ha Hb). left. apply word_inj; [apply len; exact Ha|apply len; exact Hb|]. destruct (mvw_ok a Ha) as (_ & <- & _). destruct (mvw_ok b Hb) as (_ & <- & _). congruence.
Qed.
Lemma mvw_reflected a b d : (a < num_roots s)%nat -> (b < num_roots s)%nat -> reflected s a b = Ok d -> (d < num_roots s)%nat /\ reflected s (mvw a) (mvw b) = Ok (mvw d).
Proof.
  intros Ha Hb E. destruct (top_reflected n f c pc s n32 ft mc made a b Ha Hb) as (d' & Ed & Hd & R & _). rewrite E in Ed. injection Ed as <-. split; [exact Hd|].
  destruct (mvw_ok a Ha) as (Ha' & A1 & A2). destruct (mvw_ok b Hb) as (Hb' & B1 & _). destruct (mvw_ok d Hd) as (Hd' & D1 & _). destruct (top_reflected n f c pc s n32 ft mc made _ _ Ha' Hb') as (e & -> & He & R' & _). f_equal.
  apply (top_inj n f c pc s n32 ft mc made); [exact He|exact Hd'|]. left. rewrite R', D1, R, A1, A2, B1. symmetry. apply word_reflect; apply len; assumption.
Qed.
Variable B : bset.
Hypothesis BL : length B = num_roots s.
Hypothesis BR : forall a b d, bmem B a = true -> bmem B b = true -> reflected s a b = Ok d -> bmem B d = true.
Variable l : list nat.
Hypothesis Bl : simple_basis s B = Ok l.
Variable T : bset.
Hypothesis TL : length T = num_roots s.
Hypothesis TM : forall a, bmem T a = true <-> exists b, bmem B b = true /\ permuted_left s ww b = Ok a.
Lemma B_lt a : bmem B a = true -> (a < num_roots s)%nat. Proof. apply (g_lt n f c pc s bt B BL). Qed.
Lemma T_mv a : bmem T a = true <-> exists b, bmem B b = true /\ a = mvw b.
Proof. rewrite TM. split; intros (b & M & E); exists b; (split; [exact M|]); pose proof (B_lt b M) as Hb; rewrite perm_mv in * by exact Hb; congruence. Qed.
Lemma T_closed a b d : bmem T a = true -> bmem T b = true -> reflected s a b = Ok d -> bmem T d = true.
Proof.
  rewrite !T_mv. intros (x & Mx & ->) (y & My & ->) E. pose proof (B_lt x Mx) as Hx. pose proof (B_lt y My) as Hy. destruct (top_reflected n f c pc s n32 ft mc made x y Hx Hy) as (z & Ez & _). destruct (mvw_reflected x y z Hx Hy Ez) as (_ & E').
  exists z. split; [exact (BR x y z Mx My Ez)|congruence].
Qed.
Hypothesis Pos : forall a, In a l -> exists b, permuted_left s ww a = Ok b /\ (np <= b)%nat.
Lemma l_in a : In a l -> bmem B a = true /\ (np <= a < num_roots s)%nat.
Proof. intros I. destruct (In_nth _ _ 0%nat I) as (i & Hi & <-). pose proof (l_at n f c pc s bt B BL BR l Bl i Hi). tauto. Qed.
Lemma nonneg_vsum (ls : list (list Z)) : Forall (fun v => length v = n /\ nonneg v) ls -> length (vsum n ls) = n /\ nonneg (vsum n ls).
Proof.
  induction 1 as [|v ls (Lv & Nv) F (L & N)]; cbn [vsum fold_right]; [split; [apply repeat_length|apply zero_nonneg]|]. fold (vsum n ls). split; [apply plus_length|]. intros k. rewrite co_plus by assumption. specialize (Nv k). specialize (N k). lia.
Qed.
Lemma word_vsum (ls : list (list Z)) : Forall (fun v => length v = n) ls -> length (vsum n ls) = n /\ word_act n f ww (vsum n ls) = vsum n (map (word_act n f ww) ls).
Proof.
  induction 1 as [|v ls Lv F (L & E)]; cbn [vsum fold_right map].
  - split; [apply repeat_length|]. clear - gd W. induction W as [|i w Hi F IH]; [reflexivity|]. specialize (IH F). cbn [word_act fold_right]. fold (word_act n f w (repeat 0 n)). rewrite IH. apply vec_ext; [apply sr_length|]. intros k Hk. rewrite co_sr by (rewrite repeat_length; exact Hi).
    rewrite co_zero. destruct (Nat.eqb k i); [|reflexivity]. unfold pairing. rewrite (zsum_ext _ _ (fun _ => 0)); [rewrite zsum_zero; reflexivity|]. intros j _. rewrite co_zero. lia.
  - fold (vsum n ls) (vsum n (map (word_act n f ww) ls)). split; [apply plus_length|]. rewrite word_plus by assumption. rewrite E. reflexivity.
Qed.
Lemma pos_moved a : bmem B a = true -> (np <= a)%nat -> (np <= mvw a)%nat.
Proof.
  intros M P. pose proof (B_lt a M) as Ha. destruct (top_basis_sums n f c pc s n32 ft mc made B BL BR) as (l' & El & Sm & _). rewrite Bl in El. injection El as <-. destruct (Sm a M P) as (ms & In & E).
  destruct (mvw_ok a Ha) as (H1 & E1 & _). apply (top_sign n f c pc s n32 ft mc made _ H1). rewrite E1, E. destruct (word_vsum (map rt ms)) as (_ & ->).
  { apply Forall_forall. intros v Iv. apply in_map_iff in Iv as (x & <- & Ix). apply len. apply l_in. apply In. exact Ix. }
  apply nonneg_vsum. apply Forall_forall. intros v Iv. apply in_map_iff in Iv as (y & <- & Iy). apply in_map_iff in Iy as (x & <- & Ix). destruct (l_in x (In x Ix)) as (Mx & Px). destruct (mvw_ok x ltac:(lia)) as (H2 & E2 & _).
  split; [rewrite RootExt.word_act_length; apply len; lia|]. rewrite <- E2. apply (top_sign n f c pc s n32 ft mc made _ H2). destruct (Pos x (In x Ix)) as (b & Eb & Hb). rewrite perm_mv in Eb by lia. injection Eb as ->. exact Hb.
Qed.
Lemma pos_iff a : bmem B a = true -> ((np <= a)%nat <-> (np <= mvw a)%nat).
Proof.
  intros M. split; [apply pos_moved; exact M|]. intros P. destruct (le_lt_dec np a) as [Q|Q]; [exact Q|]. exfalso. pose proof (B_lt a M) as Ha. pose proof (g_minus n f c pc s bt B BL BR a M) as Mm.
  pose proof (pos_moved _ Mm ltac:(unfold minus_nr, num_roots in *; lia)) as P2. rewrite (mv_minus n f c pc s n32 ft mc made ww a W Ha) in P2. pose proof (proj1 (mvw_ok a Ha)). unfold minus_nr, num_roots in *. lia.
Qed.
Lemma basic_moved a : bmem B a = true -> (basic n s B a <-> basic n s T (mvw a)).
Proof.
  intros M. pose proof (B_lt a M) as Ha. destruct (mvw_ok a Ha) as (Ha' & Ea & _). unfold basic, summable. rewrite <- (pos_iff a M).
  assert (MT : bmem T (mvw a) = true) by (apply T_mv; exists a; auto). rewrite M, MT.
  assert (Q : (exists b d, bmem B b = true /\ (np <= b)%nat /\ bmem B d = true /\ (np <= d)%nat /\ rt a = plus n (rt b) (rt d)) <->
    (exists b d, bmem T b = true /\ (np <= b)%nat /\ bmem T d = true /\ (np <= d)%nat /\ rt (mvw a) = plus n (rt b) (rt d))); [|tauto]. split.
  - intros (b & d & Mb & Pb & Md & Pd & E). exists (mvw b), (mvw d). pose proof (B_lt b Mb) as Hb. pose proof (B_lt d Md) as Hd. destruct (mvw_ok b Hb) as (_ & Eb & _). destruct (mvw_ok d Hd) as (_ & Ed & _).
    split; [apply T_mv; exists b; auto|]. split; [apply pos_moved; assumption|]. split; [apply T_mv; exists d; auto|]. split; [apply pos_moved; assumption|]. rewrite Ea, Eb, Ed, E. apply word_plus; apply len; assumption.
  - intros (b' & d' & Mb & Pb & Md & Pd & E). apply T_mv in Mb as (b & Mb & ->). apply T_mv in Md as (d & Md & ->). pose proof (B_lt b Mb) as Hb. pose proof (B_lt d Md) as Hd. destruct (mvw_ok b Hb) as (_ & Eb & _). destruct (mvw_ok d Hd) as (_ & Ed & _).
    exists b, d. apply (pos_iff b Mb) in Pb. apply (pos_iff d Md) in Pd. do 4 (split; [assumption|]). rewrite Ea, Eb, Ed in E. destruct (len b Hb). destruct (len d Hd). rewrite <- word_plus in E by assumption. apply word_inj; [apply len; exact Ha|apply plus_length|exact E].
Qed.
Lemma moved_basis : simple_basis s T = Ok (sort_list (map mvw l)).
Proof.
  destruct (top_basis n f c pc s n32 ft mc made T TL T_closed) as (l' & -> & So & I'). f_equal. destruct (top_basis n f c pc s n32 ft mc made B BL BR) as (l0 & El & Sol & I). rewrite Bl in El. injection El as <-.
  apply (strict_ext lt Nat.lt_irrefl Nat.lt_trans); [exact So| |].
  - apply sort_strict. apply (NoDup_map_in mvw); [apply (l_nodup n f c pc s bt B BL BR l Bl)|]. intros x y Ix Iy. apply mvw_inj; apply l_in; assumption.
  - intros x. rewrite I'. assert (SI : In x (sort_list (map mvw l)) <-> In x (map mvw l)) by (split; apply Permutation_in; [|apply Permutation_sym]; apply sort_perm). rewrite SI. rewrite in_map_iff. split.
    + intros Hx. pose proof (proj1 Hx) as M. apply T_mv in M as (b & Mb & ->). exists b. split; [reflexivity|]. apply I. apply basic_moved; assumption.
    + intros (b & <- & Ib). apply basic_moved; [apply l_in; exact Ib|]. apply I. exact Ib.
Qed.
End Move.
