(** Conjugation by a simple reflection. *)

From Coq Require Import List Arith ZArith Bool Lia Sorted Permutation.
From Verif Require Import VecModel VecProofs RunModel RunProofs MatModel MatSpec MatRing MatLin MatProofs DynBits DynkinModel LieTypeSpec
  RootModel RootSpec RootMath RootForm RootFin RootBase RootSys RootAcc RootExt RootUniq RootTop RootPerm RootProps RsfBase IvModel IvSpec IvProofs.
Import ListNotations.
Local Open Scope Z_scope.

Section Cross.
Variables (n : nat) (f : nat -> nat -> Z) (c : matrix Z) (pc : bool) (s : rootsys).
Hypothesis bt : built n f c pc s.
Notation np := (num_pos s).
Notation nr := (num_roots s).
Let L := proj1 bt.
Let F := proj1 (proj2 bt).
Let H := proj1 (proj2 (proj2 bt)).
Let E := proj2 (proj2 (proj2 bt)).
Variable i : nat.
Hypothesis Hi : (i < n)%nat.
Notation rho := (sgt s i).
Lemma rho_ok b : (b < nr)%nat -> simple_reflected s i b = Ok (rho b) /\ (rho b < nr)%nat /\ root_at s (rho b) = sreflect n f i (root_at s b).
Proof. intros Hb. destruct (sgt_ok n f c pc s L F H E i b Hi Hb) as (A & B & D & _). split; [exact A|]. split; [exact B|exact D]. Qed.
Lemma rho_lt b : (b < nr)%nat -> (rho b < nr)%nat. Proof. apply rho_ok. Qed.
Lemma rho_rho b : (b < nr)%nat -> rho (rho b) = b. Proof. intros Hb. exact (sgt_sgt n f c pc s L F H E i b Hi Hb). Qed.
Lemma rho_minus b : (b < nr)%nat -> rho (nr - 1 - b) = (nr - 1 - rho b)%nat. Proof. intros Hb. exact (sgt_minus n f c pc s L F H E i b Hi Hb). Qed.
Lemma refl_list : exists r, simple_root_permutation s i = Ok r /\ length r = nr /\ forall a, (a < nr)%nat -> get r a = Some (rho a).
Proof.
  destruct (top_system n f c pc s L F H E) as (Y & _). destruct (top_simple n f c pc s L F H E i Hi) as (Q & _). destruct (get_some (s_ri s) i) as [x G]; [unfold num_roots, num_pos in *; lia|].
  exists (r_perm x). unfold simple_root_permutation. rewrite (vget_ok _ _ _ G). split; [reflexivity|]. destruct (y_perm n f s Y i x G) as [Lp _]. split; [exact Lp|]. intros a Ha.
  destruct (rho_ok a Ha) as (R & _). unfold simple_reflected in R. rewrite (vget_ok _ _ _ G) in R. cbn [bind] in R. destruct (get_some (r_perm x) a) as [y Gy]; [rewrite Lp; exact Ha|]. rewrite (vget_ok _ _ _ Gy) in R. injection R as <-. exact Gy.
Qed.
Variable r : list nat.
Hypothesis Lr : length r = nr.
Hypothesis Hr : forall a, (a < nr)%nat -> get r a = Some (rho a).
Lemma set_ok T : length T = nr -> exists T', renumbering_set r T = Ok T' /\ length T' = nr /\ forall a, bmem T' a = true <-> (a < nr)%nat /\ bmem T (rho a) = true.
Proof.
  intros LT. unfold renumbering_set. apply gives_none.
  apply (gives_bset (fun m T' => length T' = nr /\ forall a, bmem T' a = true <-> (a < nr)%nat /\ bmem T (rho a) = true /\ (rho a < m)%nat)).
  - split; [rewrite repeat_length; exact Lr|]. intros a. split; [|intros; exfalso; lia]. unfold bmem. intros Q. destruct (nth_in_or_default a (repeat false (length r)) false) as [Q1|Q1]; [apply repeat_spec in Q1|]; congruence.
  - intros m T' Hm Mm (L' & Q). rewrite LT in Hm. rewrite (vget_ok _ _ _ (Hr m Hm)). cbn [bind]. destruct (bins_ok T' (rho m)) as (T2 & -> & L2 & M); [rewrite L'; apply rho_lt; exact Hm|]. cbn [gives]. split; [lia|]. intros a.
    rewrite M, orb_true_iff, Q, Nat.eqb_eq. split.
    + intros [->|(Q1 & Q2 & Q3)]; [rewrite rho_rho by exact Hm; split; [apply rho_lt; exact Hm|split; [exact Mm|lia]]|split; [exact Q1|split; [exact Q2|lia]]].
    + intros (Q1 & Q2 & Q3). destruct (Nat.eq_dec (rho a) m) as [<-|N]; [left; symmetry; apply rho_rho; exact Q1|right; split; [exact Q1|split; [exact Q2|lia]]].
  - intros m T' Hm Mm (L' & Q). split; [exact L'|]. intros a. rewrite Q. split; [intros (Q1 & Q2 & Q3); split; [exact Q1|split; [exact Q2|lia]]|]. intros (Q1 & Q2 & Q3). split; [exact Q1|]. split; [exact Q2|]. destruct (Nat.eq_dec (rho a) m) as [N|N]; [congruence|lia].
  - intros T' (L' & Q). split; [exact L'|]. intros a. rewrite Q. split; [tauto|]. intros [Q1 Q2]. split; [exact Q1|]. split; [exact Q2|]. rewrite LT. apply rho_lt; exact Q1.
Qed.
Lemma list_ok l : Forall (fun a => (a < nr)%nat) l -> renumbering r l = Ok (map rho l).
Proof. induction 1 as [|a l Ha Fl IH]; [reflexivity|]. cbn [renumbering map]. rewrite (vget_ok _ _ _ (Hr a Ha)). cbn [bind]. rewrite IH. reflexivity. Qed.
Lemma nswap_ok (v : list nat) a b x y : get v a = Some x -> get v b = Some y -> a <> b ->
  exists w, nswap v a b = Ok w /\ length w = length v /\ forall k, get w k = if Nat.eqb k a then Some y else if Nat.eqb k b then Some x else get v k.
Proof.
  intros Ga Gb N. unfold nswap. rewrite (vget_ok _ _ _ Ga), (vget_ok _ _ _ Gb). cbn [bind]. destruct (vput_ok v a y (get_lt _ _ _ Ga)) as (w & -> & L1 & G1). cbn [bind].
  destruct (vput_ok w b x) as (w2 & -> & L2 & G2); [rewrite L1; apply (get_lt _ _ _ Gb)|]. exists w2. split; [reflexivity|]. split; [lia|]. intros k. rewrite G2, G1.
  destruct (Nat.eqb_spec k b) as [->|N1]; [destruct (Nat.eqb_spec b a); [lia|reflexivity]|]. reflexivity.
Qed.
Lemma perm_conj p : length p = nr -> (forall a x, get p a = Some x -> (x < nr)%nat) ->
  exists p1 q, renumber r p = Ok p1 /\ upto (length p1) 0 (fun alpha q => run beta <- vget r alpha; if (alpha <? beta)%nat then nswap q alpha beta else Ok q) p1 = Ok q /\
    length q = nr /\ forall a x, (a < nr)%nat -> get p (rho a) = Some x -> get q a = Some (rho x).
Proof.
  intros Lp Hp. destruct (renumber_ok 1 ltac:(lia) r p) as (p1 & E1 & L1 & G1); [rewrite Lr; exact Hp|]. exists p1.
  destruct (gives_none (upto (length p1) 0 (fun alpha q => run beta <- vget r alpha; if (alpha <? beta)%nat then nswap q alpha beta else Ok q) p1)
     (fun q => length q = nr /\ forall a, (a < nr)%nat -> get q a = get p1 (rho a))) as (q & Eq & Lq & Q).
  { apply (gives_upto0 (fun m q => length q = nr /\ forall a, (a < nr)%nat -> get q a = if (Nat.min a (rho a) <? m)%nat then get p1 (rho a) else get p1 a)).
    - split; [lia|]. intros a Ha. destruct (Nat.ltb_spec (Nat.min a (rho a)) 0); [lia|reflexivity].
    - intros m q Hm (Lq & Q). assert (Hm' : (m < nr)%nat) by lia. rewrite (vget_ok _ _ _ (Hr m Hm')). cbn [bind]. pose proof (rho_lt m Hm') as Hrm. pose proof (rho_rho m Hm') as Hrr.
      assert (Same : forall a, (a < nr)%nat -> rho a = m -> a = rho m) by (intros a Ha <-; symmetry; apply rho_rho; exact Ha).
      destruct (Nat.ltb_spec m (rho m)) as [Lt|Ge].
      + pose proof (Q m Hm') as Qm. pose proof (Q (rho m) Hrm) as Qr. rewrite Hrr in Qr. destruct (Nat.ltb_spec (Nat.min m (rho m)) m); [lia|]. destruct (Nat.ltb_spec (Nat.min (rho m) m) m); [lia|].
        destruct (get_some p1 m ltac:(lia)) as [x Gx]. destruct (get_some p1 (rho m) ltac:(lia)) as [y Gy]. rewrite Gx in Qm. rewrite Gy in Qr.
        destruct (nswap_ok q m (rho m) x y Qm Qr ltac:(lia)) as (w & -> & Lw & W). cbn [gives]. split; [lia|]. intros a Ha. rewrite W. destruct (Nat.eqb_spec a m) as [->|N1].
        * destruct (Nat.ltb_spec (Nat.min m (rho m)) (S m)); [congruence|lia].
        * destruct (Nat.eqb_spec a (rho m)) as [->|N2].
          -- rewrite Hrr. destruct (Nat.ltb_spec (Nat.min (rho m) m) (S m)); [congruence|lia].
          -- rewrite (Q a Ha). assert (rho a <> m) by (intros Q0; apply N2, Same; assumption). destruct (Nat.ltb_spec (Nat.min a (rho a)) m), (Nat.ltb_spec (Nat.min a (rho a)) (S m)); try reflexivity; exfalso; lia.
      + cbn [gives]. split; [exact Lq|]. intros a Ha. rewrite (Q a Ha). destruct (Nat.ltb_spec (Nat.min a (rho a)) m), (Nat.ltb_spec (Nat.min a (rho a)) (S m)); try reflexivity; try (exfalso; lia).
        assert (Ma : Nat.min a (rho a) = m) by lia. destruct (Nat.eq_dec a m) as [->|N]; [replace (rho m) with m by lia; reflexivity|]. assert (Q0 : rho a = m) by lia. pose proof (Same a Ha Q0). lia.
    - intros q (Lq & Q). split; [exact Lq|]. intros a Ha. rewrite (Q a Ha). pose proof (rho_lt a Ha). destruct (Nat.ltb_spec (Nat.min a (rho a)) (length p1)); [reflexivity|lia]. }
  exists q. split; [exact E1|]. split; [exact Eq|]. split; [exact Lq|]. intros a x Ha Gx. rewrite (Q a Ha), (G1 _ _ Gx). apply Hr. apply (Hp _ _ Gx).
Qed.

(** ** simple members *)
Lemma plus_away v w : plus n v w = away n v (-1) w.
Proof. unfold plus, away. apply map_ext. intros k. lia. Qed.
Lemma rho_plus a b d : (a < nr)%nat -> (b < nr)%nat -> (d < nr)%nat -> root_at s a = plus n (root_at s b) (root_at s d) -> root_at s (rho a) = plus n (root_at s (rho b)) (root_at s (rho d)).
Proof.
  intros Ha Hb Hd Q. rewrite (proj2 (proj2 (rho_ok a Ha))), (proj2 (proj2 (rho_ok b Hb))), (proj2 (proj2 (rho_ok d Hd))), Q, !plus_away. apply (sr_away n f i); [exact Hi|apply (at_length n f c pc s bt); assumption|apply (at_length n f c pc s bt); assumption].
Qed.
Definition sum_free (T : bset) (a : nat) : Prop :=
  ~ exists b d, bmem T b = true /\ (np <= b)%nat /\ bmem T d = true /\ (np <= d)%nat /\ root_at s a = plus n (root_at s b) (root_at s d).
Lemma mem_lt (T : bset) a : length T = nr -> bmem T a = true -> (a < nr)%nat.
Proof. intros LT M. destruct (le_lt_dec (length T) a) as [Q|Q]; [rewrite bmem_over in M by exact Q; discriminate|lia]. Qed.
Lemma rho_pos a : (np <= a < nr)%nat -> a <> (np + i)%nat -> (np <= rho a)%nat.
Proof. intros Ha N. apply (sgt_pos n f c pc s L F H E i a Hi Ha N). Qed.
Lemma free_step T T' a : length T = nr -> (forall x, bmem T' x = true <-> (x < nr)%nat /\ bmem T (rho x) = true) -> bmem T (np - 1 - i) = false ->
  (a < nr)%nat -> sum_free T (rho a) -> sum_free T' a.
Proof.
  intros LT M N2 Ha Fr (b & d & Mb & Pb & Md & Pd & Q). apply Fr. apply M in Mb, Md. destruct Mb as [Hb Mb], Md as [Hd Md]. exists (rho b), (rho d). split; [exact Mb|].
  assert (Np : forall x, (np <= x < nr)%nat -> bmem T (rho x) = true -> (np <= rho x)%nat).
  { intros x Hx Mx. apply rho_pos; [exact Hx|]. intros ->. rewrite (sgt_simple n f c pc s L F H E i Hi) in Mx. congruence. }
  split; [apply Np; [split|]; assumption|]. split; [exact Md|]. split; [apply Np; [split|]; assumption|]. apply rho_plus; assumption.
Qed.
Lemma simples_conj T T' l : length T = nr -> length T' = nr -> (forall x, bmem T' x = true <-> (x < nr)%nat /\ bmem T (rho x) = true) ->
  bmem T (np + i) = false -> bmem T (np - 1 - i) = false -> simples n s T l -> simples n s T' (map rho l).
Proof.
  intros LT LT' M N1 N2 [Nd Q].
  assert (Ml : forall a, In a l -> (a < nr)%nat) by (intros a Ia; apply Q in Ia; apply (mem_lt T a LT); apply Ia).
  assert (M' : forall x, bmem T x = true <-> (x < nr)%nat /\ bmem T' (rho x) = true).
  { intros x. rewrite M. split; [intros Mx; pose proof (mem_lt T x LT Mx) as Hx; rewrite rho_rho by exact Hx; split; [exact Hx|split; [apply rho_lt; exact Hx|exact Mx]]|]. intros (Hx & _ & Mx). rewrite rho_rho in Mx by exact Hx. exact Mx. }
  assert (Ls : (np + i < nr)%nat) by apply (top_simple n f c pc s L F H E i Hi).
  assert (Ns : rho (np + i) = (np - 1 - i)%nat) by apply (sgt_simple n f c pc s L F H E i Hi).
  assert (N2' : bmem T' (np - 1 - i) = false).
  { destruct (bmem T' (np - 1 - i)) eqn:Q0; [|reflexivity]. apply M in Q0. rewrite <- Ns, rho_rho in Q0 by exact Ls. destruct Q0. congruence. }
  assert (N1' : bmem T' (np + i) = false).
  { destruct (bmem T' (np + i)) eqn:Q0; [|reflexivity]. apply M in Q0. rewrite Ns in Q0. destruct Q0. congruence. }
  split.
  - clear Q. induction Nd as [|a l Na Nd IH]; [constructor|]. cbn [map]. constructor.
    + intros Ia. apply in_map_iff in Ia. destruct Ia as (b & Eb & Ib). apply Na. rewrite <- (rho_rho a), <- Eb, rho_rho; [exact Ib|apply Ml; right; exact Ib|apply Ml; left; reflexivity].
    + apply IH. intros b Ib. apply Ml. right; exact Ib.
  - intros a. rewrite in_map_iff. split.
    + intros (b & <- & Ib). pose proof (Ml b Ib) as Hb. apply Q in Ib. destruct Ib as (Mb & Pb & Fb). split; [apply M; rewrite rho_rho by exact Hb; split; [apply rho_lt; exact Hb|exact Mb]|]. split; [apply rho_pos; [split; assumption|intros ->; congruence]|].
      apply (free_step T T'); [exact LT|exact M|exact N2|apply rho_lt; exact Hb|]. rewrite rho_rho by exact Hb. exact Fb.
    + intros (Ma & Pa & Fa). pose proof (mem_lt T' a LT' Ma) as Ha. exists (rho a). split; [apply rho_rho; exact Ha|]. apply Q. split; [apply M; exact Ma|]. split; [apply rho_pos; [split; assumption|intros ->; congruence]|].
      apply (free_step T' T); [exact LT'|exact M'|exact N2'|apply rho_lt; exact Ha|]. rewrite rho_rho by exact Ha. exact Fa.
Qed.
(** a simple root that is a member *)
Lemma simple_member T l : length T = nr -> simples n s T l -> bmem T (np + i) = true -> In (np + i)%nat l.
Proof.
  intros LT [_ Q] M. apply Q. split; [exact M|]. split; [lia|]. intros (b & d & Mb & Pb & Md & Pd & S0).
  pose proof (mem_lt T b LT Mb) as Hb. pose proof (mem_lt T d LT Md) as Hd. destruct (top_simple n f c pc s L F H E i Hi) as (_ & Es & _). rewrite Es in S0.
  pose proof (rt_up n f c pc s L F H E b (conj Pb Hb)) as U. pose proof (rt_up n f c pc s L F H E d (conj Pd Hd)) as U'. apply up_height in U, U'.
  assert (Hh : height (basis n i) = height (root_at s b) + height (root_at s d)).
  { rewrite S0, !height_zsum. unfold plus. rewrite map_length, seq_length, (at_length n f c pc s bt b Hb), (at_length n f c pc s bt d Hd), <- zsum_add. apply zsum_ext. intros k Hk. rewrite co_map by exact Hk. reflexivity. }
  rewrite height_zsum, basis_length in Hh. rewrite (zsum_ext n _ (fun k => (if Nat.eqb k i then 1 else 0) * 1)) in Hh by (intros k _; rewrite co_basis by exact Hi; lia). rewrite zsum_pick in Hh. destruct (Nat.ltb_spec i n); lia.
Qed.

(** ** the whole *)
Theorem cross_ok P x : length (i_perm x) = nr -> (forall a b, get (i_perm x) a = Some b -> (b < nr)%nat) -> classes s P x -> simples n s (i_imag x) (i_simag x) -> simples n s (i_real x) (i_sreal x) ->
  exists y, cross_act r x = Ok y /\ length (i_perm y) = nr /\
    (forall a b, (a < nr)%nat -> get (i_perm x) (rho a) = Some b -> get (i_perm y) a = Some (rho b)) /\
    classes s (fun a => P (rho a)) y /\ i_simag y = map rho (i_simag x) /\ i_sreal y = map rho (i_sreal x) /\
    (bmem (i_imag x) (np + i) = false -> bmem (i_imag x) (np - 1 - i) = false -> simples n s (i_imag y) (i_simag y)) /\
    (bmem (i_real x) (np + i) = false -> bmem (i_real x) (np - 1 - i) = false -> simples n s (i_real y) (i_sreal y)).
Proof.
  intros Lp Hp ((L1 & L2 & L3) & A & B & D) Si Sr. unfold cross_act. destruct (perm_conj (i_perm x) Lp Hp) as (p1 & q & -> & E2 & Lq & Q). cbn [bind]. rewrite E2. cbn [bind].
  destruct (set_ok _ L1) as (im & -> & Li & Mi). cbn [bind]. destruct (set_ok _ L2) as (re & -> & Le & Me). cbn [bind]. destruct (set_ok _ L3) as (cx & -> & Lc & Mc). cbn [bind].
  assert (Fm : forall T l, length T = nr -> simples n s T l -> Forall (fun a => (a < nr)%nat) l). { intros T l LT [_ Q0]. apply Forall_forall. intros a Ia. apply Q0 in Ia. apply (mem_lt T a LT). apply Ia. }
  rewrite (list_ok _ (Fm _ _ L1 Si)), (list_ok _ (Fm _ _ L2 Sr)). cbn [bind]. eexists. split; [reflexivity|]. cbn [i_perm i_imag i_real i_complex i_simag i_sreal]. split; [exact Lq|]. split; [exact Q|].
  assert (K : forall a t, (a < nr)%nat -> (t < nr)%nat -> (get q a = Some t <-> get (i_perm x) (rho a) = Some (rho t))).
  { intros a t Ha Ht. destruct (get_some (i_perm x) (rho a)) as [b G]; [rewrite Lp; apply rho_lt; exact Ha|]. rewrite (Q a b Ha G), G. pose proof (Hp _ _ G) as Hb. split; intros J; injection J as J; f_equal; [rewrite <- J; symmetry; apply rho_rho; exact Hb|rewrite J; apply rho_rho; exact Ht]. }
  split; [|split; [reflexivity|split; [reflexivity|split; intros N1 N2; [apply (simples_conj (i_imag x)); assumption|apply (simples_conj (i_real x)); assumption]]]].
  split; [cbn [i_imag i_real i_complex]; auto|]. cbn [i_perm i_imag i_real i_complex].
  assert (Lm : forall a, (a < nr)%nat -> (nr - 1 - a < nr)%nat) by (intros; lia).
  split; [|split]; intros a; [rewrite Mi, A|rewrite Me, B|rewrite Mc, D]; split.
  - intros (Ha & _ & Pa & G). split; [exact Ha|]. split; [exact Pa|]. apply K; assumption.
  - intros (Ha & Pa & G). split; [exact Ha|]. split; [apply rho_lt; exact Ha|]. split; [exact Pa|]. apply K; assumption.
  - intros (Ha & _ & Pa & G). split; [exact Ha|]. split; [exact Pa|]. apply K; [exact Ha|apply Lm; exact Ha|]. rewrite rho_minus by exact Ha. exact G.
  - intros (Ha & Pa & G). split; [exact Ha|]. split; [apply rho_lt; exact Ha|]. split; [exact Pa|]. rewrite <- rho_minus by exact Ha. apply K; [exact Ha|apply Lm; exact Ha|exact G].
  - intros (Ha & _ & Pa & G & G'). split; [exact Ha|]. split; [exact Pa|]. split; [intros J; apply G; apply K; assumption|]. intros J. apply G'. rewrite <- rho_minus by exact Ha. apply K; [exact Ha|apply Lm; exact Ha|exact J].
  - intros (Ha & Pa & G & G'). split; [exact Ha|]. split; [apply rho_lt; exact Ha|]. split; [exact Pa|]. split; [intros J; apply G; apply K; assumption|]. intros J. apply G'. apply K; [exact Ha|apply Lm; exact Ha|]. rewrite rho_minus by exact Ha. exact J.
Qed.
End Cross.
