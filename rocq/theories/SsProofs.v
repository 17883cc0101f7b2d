(** The constructor of SubSystem. *)

From Coq Require Import List Arith ZArith Bool Lia Permutation Sorted.
From Verif Require Import VecModel VecProofs RunModel RunProofs MatModel MatSpec MatProofs MatLin MatOps MatProps LatModel SizeModel LieTypeModel LieTypeSpec DynkinModel
  RootModel RootSpec RootBase RootMath RootForm RootFin RootCo RootAcc RootSys RootUniq RootOrder RootBasis RootTop RootProps DatModel DatSpec DatMath DatProofs DatOps DatGens DatSub
  DatProps DatProps2 DfModel ClsMain ClsSub SsModel SsPath.
Import ListNotations.
Local Open Scope Z_scope.

Lemma vget_nth (l : list nat) i : (i < length l)%nat -> vget l i = Ok (nth i l 0%nat).
Proof. intros H. apply vget_ok. apply nth_error_nth'. exact H. Qed.
Lemma bposition_S b x : bposition b (S x) = (bposition b x + (if bmem b x then 1 else 0))%nat.
Proof. unfold bposition. rewrite seq_S, filter_app, app_length. cbn. destruct (bmem b x); reflexivity. Qed.
Lemma bposition_le b x y : (x <= y)%nat -> (bposition b x <= bposition b y)%nat.
Proof. induction 1 as [|y L IH]; [lia|]. rewrite bposition_S. lia. Qed.
Lemma bposition_lt b x y : bmem b x = true -> (x < y)%nat -> (bposition b x < bposition b y)%nat.
Proof. intros M L. pose proof (bposition_le b (S x) y L). rewrite bposition_S, M in H. lia. Qed.
Lemma bins_run b x : (x < length b)%nat -> exists b', bins b x = Ok b' /\ length b' = length b /\ forall y, bmem b' y = (y =? x)%nat || bmem b y.
Proof.
  intros H. unfold bins. destruct (vput_ok b x true H) as (b' & -> & L & G). exists b'. split; [reflexivity|]. split; [exact L|]. intros y. unfold bmem. specialize (G y). unfold get in G.
  destruct (Nat.eqb_spec y x) as [Q|N]; [rewrite (nth_error_nth _ _ _ G); reflexivity|]. destruct (nth_error b y) eqn:E.
  - rewrite (nth_error_nth _ _ _ G), (nth_error_nth _ _ _ E). reflexivity.
  - rewrite !nth_overflow; [reflexivity| |]; apply nth_error_None; assumption.
Qed.
Lemma vput_nth (l : list nat) k x : (k < length l)%nat -> exists l', vput l k x = Ok l' /\ length l' = length l /\ nth k l' 0%nat = x /\ forall j, j <> k -> nth j l' 0%nat = nth j l 0%nat.
Proof.
  intros H. destruct (vput_ok l k x H) as (l' & -> & L & G). exists l'. split; [reflexivity|]. split; [exact L|]. unfold get in G. split.
  - specialize (G k). rewrite Nat.eqb_refl in G. apply (nth_error_nth _ _ _ G).
  - intros j N. specialize (G j). destruct (Nat.eqb_spec j k); [contradiction|]. destruct (nth_error l j) eqn:E.
    + rewrite (nth_error_nth _ _ _ G), (nth_error_nth _ _ _ E). reflexivity.
    + rewrite !nth_overflow; [reflexivity| |]; apply nth_error_None; assumption.
Qed.
Lemma nth_snoc {T} (l : list T) x k d : nth k (l ++ [x]) d = if (k =? length l)%nat then x else nth k l d.
Proof.
  destruct (Nat.eqb_spec k (length l)) as [->|N]; [rewrite app_nth2, Nat.sub_diag by lia; reflexivity|].
  destruct (lt_dec k (length l)); [rewrite app_nth1 by assumption; reflexivity|]. rewrite !nth_overflow; [reflexivity|lia|rewrite app_length; cbn; lia].
Qed.

Section Ss.
Variables (n : nat) (f : nat -> nat -> Z) (c : matrix Z) (pc : bool) (s : rootsys).
Hypothesis bt : built n f c pc s.
Variable B : bset.
Hypothesis BL : length B = num_roots s.
Hypothesis BR : forall a b d, bmem B a = true -> bmem B b = true -> reflected s a b = Ok d -> bmem B d = true.
Variable l : list nat.
Hypothesis Bl : simple_basis s B = Ok l.
Notation m := (length l).
Notation G := (fun i j => value n f (sV s l i) (sW s l j)).
Variables (cm : matrix Z) (t : rootsys).
Hypothesis bt' : built m G cm pc t.
Let n32 : (n <= 32)%nat := proj1 bt.
Let ft : finite_type n f := proj1 (proj2 bt).
Let mc : is_mx c n n f := proj1 (proj2 (proj2 bt)).
Let made : root_system c pc = Ok s := proj2 (proj2 (proj2 bt)).
Let gd : good n f := proj1 (top_good n f ft).
Let n32' : (m <= 32)%nat := proj1 bt'.
Let ft' : finite_type m G := proj1 (proj2 bt').
Let mc' : is_mx cm m m G := proj1 (proj2 (proj2 bt')).
Let made' : root_system cm pc = Ok t := proj2 (proj2 (proj2 bt')).
Notation np := (num_pos s).
Notation nq := (num_pos t).
Notation emb := (comb n m (sV s l)).
Notation coemb := (comb n m (sW s l)).

(** the root of the parent for a root of the subsystem *)
Definition over (i a : nat) : Prop := bmem B a = true /\ root_at s a = emb (root_at t i) /\ coroot_at s a = coemb (coroot_at t i).
Lemma over_lt i a : over i a -> (a < num_roots s)%nat.
Proof. intros (M & _). apply (g_lt n f c pc s bt B BL a M). Qed.
Lemma over_exists i : (i < num_roots t)%nat -> exists a, over i a.
Proof. intros Hi. destruct (top_numbers m G cm pc t n32' ft' mc' made' i Hi) as (_ & _ & R). apply (sub_sound n f c pc s bt B BL BR l Bl _ _ R). Qed.
Lemma over_fun i a b : over i a -> over i b -> a = b.
Proof. intros Q1 Q2. apply (top_inj n f c pc s n32 ft mc made); [exact (over_lt i a Q1)|exact (over_lt i b Q2)|]. left. destruct Q1 as (_ & -> & _). destruct Q2 as (_ & -> & _). reflexivity. Qed.
Lemma emb_nonneg u : length u = m -> nonneg u -> nonneg (emb u).
Proof.
  intros L N k. destruct (lt_dec k n) as [Hk|Hk]; [|rewrite co_over by (rewrite comb_length; lia); lia]. rewrite co_comb by exact Hk. apply zsum_nonneg. intros i Hi.
  pose proof (N i). pose proof (s_pos n f c pc s bt B BL BR l Bl i Hi k). nia.
Qed.
Lemma t_len i : (i < num_roots t)%nat -> length (root_at t i) = m /\ length (coroot_at t i) = m.
Proof. intros Hi. apply (g_len m G cm pc t bt' i Hi). Qed.
Lemma over_pos i a : (nq <= i < num_roots t)%nat -> over i a -> (np <= a)%nat.
Proof.
  intros Hi O. apply (top_sign n f c pc s n32 ft mc made a (over_lt i a O)). destruct O as (_ & -> & _). apply emb_nonneg; [apply t_len; lia|]. apply (top_sign m G cm pc t n32' ft' mc' made' i); lia.
Qed.
Lemma over_minus i a : (i < num_roots t)%nat -> over i a -> over (minus_nr nq i) (minus_nr np a).
Proof.
  intros Hi O. pose proof (over_lt i a O) as Ha. destruct O as (M & E1 & E2). destruct (top_minus n f c pc s n32 ft mc made a Ha) as (_ & F1 & F2). destruct (top_minus m G cm pc t n32' ft' mc' made' i Hi) as (_ & F3 & F4).
  split; [apply (g_minus n f c pc s bt B BL BR a M)|]. rewrite F1, F2, F3, F4, !comb_opp, E1, E2. split; reflexivity.
Qed.
Lemma minus_lt q a : (a < 2 * q)%nat -> (minus_nr q a < 2 * q)%nat /\ minus_nr q (minus_nr q a) = a /\ ((q <= a <-> minus_nr q a < q))%nat.
Proof. unfold minus_nr. lia. Qed.
Lemma over_sign i a : (i < num_roots t)%nat -> over i a -> ((nq <= i <-> np <= a))%nat.
Proof.
  intros Hi O. split; [intros; apply (over_pos i); [lia|exact O]|]. intros P. destruct (le_lt_dec nq i) as [Q|Q]; [exact Q|]. exfalso. pose proof (over_lt i a O) as Ha. pose proof (over_minus i a Hi O) as O'.
  destruct (minus_lt nq i ltac:(unfold num_roots in *; lia)) as (H1 & _ & H2). destruct (minus_lt np a ltac:(unfold num_roots in *; lia)) as (_ & _ & H3).
  pose proof (over_pos (minus_nr nq i) _ ltac:(unfold num_roots in *; unfold minus_nr in *; lia) O'). lia.
Qed.
Lemma over_inj i j a : (i < num_roots t)%nat -> (j < num_roots t)%nat -> over i a -> over j a -> i = j.
Proof.
  intros Hi Hj (_ & E1 & _) (_ & E2 & _). apply (top_inj m G cm pc t n32' ft' mc' made'); [exact Hi|exact Hj|]. left. destruct (t_len i Hi) as [L1 _]. destruct (t_len j Hj) as [L2 _].
  destruct gd as (gc & (dd & fd) & _). assert (Q : forall k, (k < m)%nat -> co (root_at t i) k - co (root_at t j) k = 0).
  { apply (V_independent n f gd m (sV s l) (sW s l)) with (d := dd); [apply (s_rc n f c pc s bt B BL BR l Bl)|apply (s_pos n f c pc s bt B BL BR l Bl)|apply (s_away n f c pc s bt B BL BR l Bl)|exact fd|].
    intros k Hk. unfold tot. assert (E : co (emb (root_at t i)) k = co (emb (root_at t j)) k) by congruence. rewrite !co_comb in E by exact Hk.
    assert (S1 : zsum m (fun p => (co (root_at t i) p - co (root_at t j) p) * co (sV s l p) k) + zsum m (fun p => co (root_at t j) p * co (sV s l p) k) = zsum m (fun p => co (root_at t i) p * co (sV s l p) k)); [|lia].
    rewrite <- zsum_add. apply zsum_ext. intros. lia. }
  apply vec_ext; [lia|]. intros k Hk. specialize (Q k ltac:(lia)). lia.
Qed.
Lemma over_onto a : bmem B a = true -> exists i, (i < num_roots t)%nat /\ over i a.
Proof.
  intros M. destruct (proj1 (sub_roots n f c pc s bt B BL BR l Bl (root_at s a) (coroot_at s a))) as (v & w & R & E1 & E2); [exists a; auto|].
  destruct (top_every m G cm pc t n32' ft' mc' made' v w R) as (i & Hi & F1 & F2). exists i. split; [exact Hi|]. split; [exact M|]. rewrite F1, F2. split; assumption.
Qed.
Lemma value_emb u w : value n f (emb u) (coemb w) = value m G u w.
Proof.
  rewrite value_comb. unfold value at 2. apply zsum_ext. intros i Hi. rewrite value_comb_r, <- zsum_mul_l. apply zsum_ext. intros j Hj. lia.
Qed.
Lemma over_reflected i j a b : (i < num_roots t)%nat -> (j < num_roots t)%nat -> over i a -> over j b ->
  exists k e, reflected t i j = Ok k /\ reflected s a b = Ok e /\ (k < num_roots t)%nat /\ over k e.
Proof.
  intros Hi Hj O1 O2. pose proof (over_lt i a O1) as Ha. pose proof (over_lt j b O2) as Hb. destruct (top_reflected n f c pc s n32 ft mc made a b Ha Hb) as (e & Ee & _ & R1 & R2).
  destruct (top_reflected m G cm pc t n32' ft' mc' made' i j Hi Hj) as (k & Ek & Hk & R3 & R4). exists k, e. split; [exact Ek|]. split; [exact Ee|]. split; [exact Hk|].
  destruct O1 as (M1 & E1 & E2). destruct O2 as (M2 & E3 & E4). split; [exact (BR a b e M1 M2 Ee)|]. destruct (t_len i Hi) as [L1 L2]. destruct (t_len j Hj) as [L3 L4].
  rewrite R1, R2, R3, R4, E1, E2, E3, E4. unfold reflect. rewrite !comb_away by assumption. rewrite !value_emb, (value_flip n f), value_emb, (value_flip m G). split; reflexivity.
Qed.
Lemma over_simple i : (i < m)%nat -> over (nq + i) (nth i l 0%nat).
Proof.
  intros Hi. destruct (top_simple m G cm pc t n32' ft' mc' made' i Hi) as (_ & E1 & E2). destruct (s_len n f c pc s bt B BL BR l Bl i Hi) as [L1 L2]. split; [apply (l_at n f c pc s bt B BL BR l Bl i Hi)|].
  rewrite E1, E2, !comb_basis by assumption. split; reflexivity.
Qed.
Lemma m_nq : (m <= nq)%nat.
Proof. destruct (Nat.eq_dec m 0) as [E|N]; [lia|]. pose proof (proj1 (top_simple m G cm pc t n32' ft' mc' made' (m - 1) ltac:(lia))). unfold num_roots in *. lia. Qed.
Lemma np_pos a : (np <= a)%nat -> posroot_index s a = Ok (a - np)%nat.
Proof. intros H. unfold posroot_index, is_pos. rewrite (proj2 (Nat.leb_le np a) H). reflexivity. Qed.

(** the first [i] positive roots are recorded *)
Definition recorded (i : nat) (q : bset * list nat) : Prop := let '(wh, pm) := q in
  length pm = i /\ length wh = np /\ (forall k, (k < i)%nat -> over (nq + k) (nth k pm 0%nat)) /\ forall k, bmem wh k = true <-> In (np + k)%nat pm.
Lemma record_next i wh pm x : recorded i (wh, pm) -> (i < nq)%nat -> over (nq + i) x -> exists wh', bins wh (x - np) = Ok wh' /\ recorded (S i) (wh', pm ++ [x]).
Proof.
  intros (Lp & Lw & Ho & Hm) Hi Ox. pose proof (over_pos (nq + i) x ltac:(unfold num_roots; lia) Ox) as Px. pose proof (over_lt _ _ Ox) as Lx. destruct (bins_run wh (x - np)) as (wh' & E & Lw' & M); [unfold num_roots in *; lia|].
  exists wh'. split; [exact E|]. split; [rewrite app_length; cbn; lia|]. split; [lia|]. split.
  - intros k Hk. rewrite nth_snoc, Lp. destruct (Nat.eqb_spec k i) as [->|N]; [exact Ox|]. apply Ho. lia.
  - intros k. rewrite M, in_app_iff, orb_true_iff, Hm, Nat.eqb_eq. cbn [In]. split; [intros [->|I]; [right; left; lia|left; exact I]|intros [I|[I|[]]]; [right; exact I|left; lia]].
Qed.
Lemma first_loop : gives (upto m 0 (fun j '(wh, pm) => run a <- vget l j; run ka <- posroot_index s a; run wh1 <- bins wh ka; Ok (wh1, pm ++ [a])) (repeat false np, [])) (recorded m) none.
Proof.
  apply (gives_upto0 recorded).
  - split; [reflexivity|]. split; [apply repeat_length|]. split; [intros; lia|]. intros k. unfold bmem. rewrite nth_repeat. cbn. split; [discriminate|tauto].
  - intros j [wh pm] Hj R. rewrite (vget_nth l j Hj). cbn [bind]. pose proof (over_simple j Hj) as O. pose proof m_nq. rewrite np_pos by (apply (l_at n f c pc s bt B BL BR l Bl j Hj)). cbn [bind].
    destruct (record_next j wh pm (nth j l 0%nat) R ltac:(lia) O) as (wh' & -> & R'). exact R'.
  - auto.
Qed.
Lemma second_loop q : recorded m q -> gives (sub_extend t s m q) (recorded nq) none.
Proof.
  intros R0. unfold sub_extend. pose proof m_nq as Lm. eapply gives_mono with (P := recorded (m + (nq - m))); [|intros ?; replace (m + (nq - m))%nat with nq by lia; auto].
  apply (gives_upto recorded); [exact R0|]. intros i [wh pm] Hi R. cbv zeta. unfold pos_nr. pose proof R as (Lp & Lw & Ho & Hm).
  destruct (descent_step m G cm pc t bt' (nq + i) ltac:(unfold num_roots; lia)) as (g & b & -> & Hg & Eb & Hb & E1 & E2). cbn [bind]. rewrite Eb. cbn [bind]. unfold posroot_index at 1, is_pos. rewrite (proj2 (Nat.leb_le nq b)) by lia. cbn [bind].
  rewrite (vget_nth pm (b - nq)) by lia. cbn [bind]. rewrite (vget_nth pm g) by lia. cbn [bind].
  pose proof (Ho (b - nq)%nat ltac:(lia)) as Ob. replace (nq + (b - nq))%nat with b in Ob by lia. pose proof (Ho g ltac:(lia)) as Og.
  assert (H1 : (nq + g < num_roots t)%nat) by (unfold num_roots; lia). assert (H2 : (b < num_roots t)%nat) by (unfold num_roots; lia).
  destruct (over_reflected _ _ _ _ H1 H2 Og Ob) as (k & e & Ek & Ee & Hk & Oe). rewrite Ee. cbn [bind].
  assert (Ek' : k = (nq + i)%nat).
  { apply (top_inj m G cm pc t n32' ft' mc' made'); [exact Hk|unfold num_roots; lia|]. left. destruct (top_reflected m G cm pc t n32' ft' mc' made' _ _ H1 H2) as (k' & Ek2 & _ & R1 & _). rewrite Ek in Ek2. injection Ek2 as <-.
    rewrite R1, E1. destruct (top_simple m G cm pc t n32' ft' mc' made' g Hg) as (_ & -> & ->). apply reflect_simple; [exact Hg|apply t_len; exact H2]. }
  subst k. rewrite np_pos by (apply (over_pos (nq + i)); [unfold num_roots; lia|exact Oe]). cbn [bind]. destruct (record_next i wh pm e R ltac:(lia) Oe) as (wh' & -> & R'). exact R'.
Qed.
Lemma recorded_nodup i wh pm : recorded i (wh, pm) -> (i <= nq)%nat -> NoDup pm.
Proof.
  intros (Lp & _ & Ho & _) Hi. apply (NoDup_nth pm 0%nat). intros a b Ha Hb E. rewrite Lp in *. pose proof (Ho a Ha) as O1. pose proof (Ho b Hb) as O2. rewrite E in O1.
  pose proof (over_inj (nq + a) (nq + b) _ ltac:(unfold num_roots; lia) ltac:(unfold num_roots; lia) O1 O2). lia.
Qed.
Lemma recorded_count wh pm : recorded nq (wh, pm) -> bposition wh np = nq.
Proof.
  intros R. pose proof (recorded_nodup nq wh pm R (le_n _)) as ND. destruct R as (Lp & Lw & Ho & Hm). unfold bposition. transitivity (length pm); [|exact Lp]. rewrite <- (map_length (Nat.add np)). apply Permutation_length. apply NoDup_Permutation; [|exact ND|].
  - apply FinFun.Injective_map_NoDup; [intros x y; lia|]. apply NoDup_filter. apply seq_NoDup.
  - intros x. rewrite in_map_iff. split.
    + intros (k & <- & I). apply filter_In in I as [_ M]. apply Hm. exact M.
    + intros I. destruct (In_nth _ _ 0%nat I) as (k & Hk & <-). rewrite Lp in Hk. pose proof (Ho k Hk) as O. pose proof (over_pos (nq + k) _ ltac:(unfold num_roots; lia) O) as P. pose proof (over_lt _ _ O) as L.
      exists (nth k pm 0 - np)%nat. split; [lia|]. apply filter_In. split; [apply in_seq; unfold num_roots in *; lia|]. apply Hm. replace (np + (nth k pm 0 - np)%nat)%nat with (nth k pm 0%nat) by lia. exact I.
Qed.
Lemma recorded_place wh pm k : recorded nq (wh, pm) -> (k < nq)%nat -> (np <= nth k pm 0 < num_roots s)%nat /\ bmem wh (nth k pm 0 - np)%nat = true /\ (bposition wh (nth k pm 0 - np)%nat < nq)%nat.
Proof.
  intros R Hk. pose proof (recorded_count wh pm R) as Ct. destruct R as (Lp & Lw & Ho & Hm). pose proof (Ho k Hk) as O. pose proof (over_pos (nq + k) _ ltac:(unfold num_roots; lia) O) as P. pose proof (over_lt _ _ O) as L.
  assert (M : bmem wh (nth k pm 0 - np)%nat = true). { apply Hm. replace (np + (nth k pm 0 - np)%nat)%nat with (nth k pm 0%nat) by lia. apply nth_In. lia. }
  split; [lia|]. split; [exact M|]. apply Nat.lt_le_trans with (bposition wh np); [|lia]. apply bposition_lt; [exact M|unfold num_roots in *; lia].
Qed.
Lemma place_inj wh pm j k : recorded nq (wh, pm) -> (j < nq)%nat -> (k < nq)%nat -> bposition wh (nth j pm 0 - np)%nat = bposition wh (nth k pm 0 - np)%nat -> j = k.
Proof.
  intros R Hj Hk E. destruct (recorded_place wh pm j R Hj) as (P1 & M1 & _). destruct (recorded_place wh pm k R Hk) as (P2 & M2 & _). pose proof (recorded_nodup nq wh pm R (le_n _)) as ND.
  apply (proj1 (NoDup_nth pm 0%nat) ND); [destruct R; lia|destruct R; lia|].
  destruct (lt_eq_lt_dec (nth j pm 0 - np)%nat (nth k pm 0 - np)%nat) as [[L|Q]|L]; [|lia|]; [pose proof (bposition_lt wh _ _ M1 L)|pose proof (bposition_lt wh _ _ M2 L)]; lia.
Qed.
(** what the constructor stores for root number [k] *)
Definition stored (wh : bset) (pm im sm : list nat) (tw rw : list (list nat)) (k : nat) : Prop :=
  nth (bposition wh (nth k pm 0 - np)%nat) im 0%nat = (nq + k)%nat /\
  exists w, path n f s (nth k pm 0%nat) w (nth k sm 0%nat) /\ nth k tw [] = rev w /\ nth k rw [] = w ++ [nth k sm 0%nat] ++ rev w.
Lemma third_loop wh pm : recorded nq (wh, pm) ->
  gives (upto nq 0 (fun i '(im, sm, tw, rw) => run a <- vget pm i; run ka <- posroot_index s a; run im1 <- vput im (bposition wh ka) (pos_nr nq i);
    run x <- conjugate_words s a; let '(g, w, r) := x in Ok (im1, sm ++ [g], tw ++ [w], rw ++ [r])) (repeat 0%nat nq, [], [], []))
  (fun '(im, sm, tw, rw) => length im = nq /\ length sm = nq /\ length tw = nq /\ length rw = nq /\ forall k, (k < nq)%nat -> stored wh pm im sm tw rw k) none.
Proof.
  intros R. apply (gives_upto0 (fun i '(im, sm, tw, rw) => length im = nq /\ length sm = i /\ length tw = i /\ length rw = i /\ forall k, (k < i)%nat -> stored wh pm im sm tw rw k)).
  - split; [apply repeat_length|]. do 3 (split; [reflexivity|]). intros; lia.
  - intros i [[[im sm] tw] rw] Hi (L1 & L2 & L3 & L4 & Q). destruct (recorded_place wh pm i R Hi) as (P & M & Pl). rewrite (vget_nth pm i) by (destruct R; lia). cbn [bind]. rewrite np_pos by lia. cbn [bind].
    destruct (vput_nth im (bposition wh (nth i pm 0 - np)%nat) (pos_nr nq i)) as (im' & -> & L1' & V1 & V2); [lia|]. cbn [bind].
    destruct (path_exists n f c pc s bt (nth i pm 0%nat) P) as (w & g & Pw). rewrite (words_path n f c pc s bt _ w g (proj2 P) Pw). cbn [bind gives].
    rewrite !app_length. cbn [length]. split; [lia|]. do 3 (split; [lia|]). intros k Hk. unfold stored. rewrite !nth_snoc, L2, L3, L4. destruct (Nat.eqb_spec k i) as [->|N].
    + split; [exact V1|]. exists w. split; [exact Pw|]. split; reflexivity.
    + destruct (Q k ltac:(lia)) as [Q1 Q2]. split; [|exact Q2]. rewrite V2; [exact Q1|]. intros E. apply N. apply (place_inj wh pm k i R); [lia|exact Hi|exact E].
  - intros [[[im sm] tw] rw] H. exact H.
Qed.
Lemma subsystem_run d : d_sys d = s -> Cartan_of s l = Ok cm -> exists wh pm im sm tw rw, subsystem d l = Ok (mk_subsys t d wh pm im sm tw rw) /\ recorded nq (wh, pm) /\
  length im = nq /\ length sm = nq /\ length tw = nq /\ length rw = nq /\ forall k, (k < nq)%nat -> stored wh pm im sm tw rw k.
Proof.
  intros Ed Ec. unfold subsystem. cbv zeta. rewrite Ed, Ec. cbn [bind]. destruct (top_system n f c pc s n32 ft mc made) as (_ & -> & _). rewrite made'. cbn [bind].
  destruct (gives_none _ _ first_loop) as (q & -> & R1). cbn [bind]. destruct (gives_none _ _ (second_loop q R1)) as ([wh pm] & -> & R2). cbn [bind].
  destruct (gives_none _ _ (third_loop wh pm R2)) as ([[[im sm] tw] rw] & -> & H). cbn [bind]. exists wh, pm, im, sm, tw, rw. split; [reflexivity|]. split; [exact R2|exact H].
Qed.
End Ss.
