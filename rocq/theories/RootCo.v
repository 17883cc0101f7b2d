(** The coroots, and the exchange of roots and coroots. *)

From Coq Require Import List Arith ZArith Bool Lia Sorted.
From Verif Require Import VecModel VecProofs RunModel RunProofs MatModel MatSpec MatRing MatLin MatProofs MatOps SizeModel BitsetSpec DynBits DynkinModel LieTypeSpec RootModel RootSpec RootMath RootForm RootFin RootBase RootGen.
Import ListNotations.
Local Open Scope Z_scope.

(** ** The simple roots come first *)
Lemma lex_at u : forall v k, length u = length v -> nth k u 0 < nth k v 0 -> (forall m, (m < k)%nat -> nth m u 0 = nth m v 0) -> lex_lt u v = true.
Proof.
  induction u as [|x u IH]; intros [|y v] k L H E; try discriminate; [destruct k; cbn in H; lia|]. cbn. destruct k as [|k].
  - cbn in H. destruct (Z.eqb_spec x y); [lia|]. apply Z.ltb_lt. exact H.
  - pose proof (E 0%nat ltac:(lia)) as E0. cbn in E0. subst y. rewrite Z.eqb_refl. apply (IH v k); [cbn in L; lia|exact H|]. intros m Hm. apply (E (S m)). lia.
Qed.
Lemma root_lt_at u v k : length u = length v -> (k < length u)%nat -> co u k < co v k -> (forall m, (k < m < length u)%nat -> co u m = co v m) -> root_lt u v = true.
Proof.
  intros L Hk H E. unfold root_lt, co in *. apply (lex_at _ _ (length u - S k)).
  - rewrite !rev_length. exact L.
  - rewrite !rev_nth by lia. rewrite <- L. replace (length u - S (length u - S k))%nat with k by lia. exact H.
  - intros m Hm. rewrite !rev_nth by lia. rewrite <- L. apply E. lia.
Qed.
Lemma basis_rlt n i j : (i < j < n)%nat -> rlt (basis n i) (basis n j).
Proof.
  intros H. apply (root_lt_at _ _ j); rewrite ?basis_length; [reflexivity|lia| |].
  - rewrite !co_basis by lia. rewrite Nat.eqb_refl, (proj2 (Nat.eqb_neq j i)) by lia. lia.
  - intros m Hm. rewrite !co_basis by lia. rewrite (proj2 (Nat.eqb_neq m i)), (proj2 (Nat.eqb_neq m j)) by lia. reflexivity.
Qed.
Lemma before_trans u v w : before u v -> before v w -> before u w.
Proof.
  unfold before, rlt. intros [H|[H H']] [K|[K K']]; try (left; lia). right. split; [lia|]. apply (root_lt_trans u v w H' K').
Qed.
Lemma sorted_lt l a b u v : StronglySorted before l -> get l a = Some u -> get l b = Some v -> before u v -> (a < b)%nat.
Proof.
  intros S Ga Gb H. destruct (lt_eq_lt_dec a b) as [[L|E]|L]; [exact L| |].
  - exfalso. subst b. rewrite Ga in Gb. injection Gb as <-. exact (before_irrefl u H).
  - exfalso. apply (before_irrefl u). apply (before_trans u v u H). apply (sorted_get _ _ S b a); assumption.
Qed.
Lemma sorted_simple n C l : Cartan_like n C -> StronglySorted before l -> (forall v, In v l <-> up n C v) -> forall i, (i < n)%nat -> get l i = Some (basis n i).
Proof.
  intros Ca S I.
  assert (P : forall i, (i < n)%nat -> exists p, get l p = Some (basis n i)) by (intros i Hi; apply In_get, I, up_simple; exact Hi).
  assert (Ge : forall i p, (i < n)%nat -> get l p = Some (basis n i) -> (i <= p)%nat).
  { induction i as [|i IH]; intros p Hi G; [lia|]. destruct (P i ltac:(lia)) as [q Gq]. pose proof (IH q ltac:(lia) Gq).
    assert (q < p)%nat; [|lia]. apply (sorted_lt l q p _ _ S Gq G). right. split; [rewrite !height_basis by lia; reflexivity|]. apply basis_rlt. lia. }
  intros i. induction i as [i IH] using lt_wf_ind. intros Hi. destruct (P i Hi) as [p Gp]. pose proof (Ge i p Hi Gp) as Lp.
  destruct (get_some l i) as [u Gu]; [pose proof (get_lt _ _ _ Gp); lia|].
  destruct (Nat.eq_dec p i) as [->|N]; [exact Gp|]. exfalso.
  assert (Lt : (i < p)%nat) by lia. pose proof (sorted_get _ _ S i p _ _ Lt Gu Gp) as B. pose proof (proj1 (I u) (get_In _ _ _ Gu)) as U.
  pose proof (up_height n C u U) as Hu. assert (H1 : height u = 1) by (destruct B as [B|[B _]]; rewrite height_basis in B by exact Hi; lia).
  destruct (up_height_1 n C Ca u U H1) as (k & Hk & ->). destruct (lt_eq_lt_dec k i) as [[L|E]|L].
  - pose proof (IH k L Hk) as Gk. assert (k = i); [|lia]. destruct (lt_eq_lt_dec k i) as [[L'|E]|L']; [|exact E|lia].
    exfalso. apply (before_irrefl (basis n k)). apply (sorted_get _ _ S k i); assumption.
  - subst k. apply (before_irrefl (basis n i)). exact B.
  - pose proof (Ge k i Hk Gu). lia.
Qed.

(** ** The tables *)
Record table (n : nat) (C : nat -> nat -> Z) (link : list (list (option nat))) (ri : list root_info) : Prop := {
  t_rc : forall a x, get ri a = Some x -> root_coroot n C (r_root x) (r_coroot x) /\ up n C (r_root x);
  t_all : forall v, up n C v -> exists a x, get ri a = Some x /\ r_root x = v;
  t_inj : forall a b x y, get ri a = Some x -> get ri b = Some y -> r_root x = r_root y -> a = b;
  t_simple : forall i, (i < n)%nat -> exists x, get ri i = Some x /\ r_root x = basis n i;
  t_link : forall a i x, get ri a = Some x -> (i < n)%nat -> exists b, link_at link a i = Ok b /\
    ((a = i /\ b = a) \/ (a <> i /\ exists y, get ri b = Some y /\ r_root y = sreflect n C i (r_root x)));
  t_down : forall a i x b, get ri a = Some x -> mem (r_desc x) i = true -> (n <= a)%nat -> link_at link a i = Ok b -> (b < a)%nat;
  t_bits : forall a x, get ri a = Some x -> is32 (r_desc x) /\ is32 (r_asc x) /\
    forall i, (mem (r_desc x) i = true <-> (i < n)%nat /\ 0 < pairing n C (r_root x) i) /\
              (mem (r_asc x) i = true <-> (i < n)%nat /\ pairing n C (r_root x) i < 0) }.
Definition agree (x y : root_info) : Prop := r_root y = r_root x /\ r_perm y = r_perm x /\ r_desc y = r_desc x /\ r_asc y = r_asc x.

Lemma link_lk g a i b : lk g a i = Some (Some b) -> link_at (g_link g) a i = Ok b.
Proof.
  unfold lk, link_at. destruct (get (g_link g) a) as [row|] eqn:G; [|discriminate]. intros H. rewrite (vget_ok _ _ _ G). cbn [bind].
  rewrite (vget_ok _ _ _ H). reflexivity.
Qed.

Section Coroots.
Variables (n : nat) (C : nat -> nat -> Z).
Hypothesis n1 : (1 <= n <= 32)%nat.
Hypothesis gd : good n C.
Hypothesis gd' : good n (flip C).
Notation pair := (pairing n C).
Notation sr := (sreflect n C).
Notation up := (up n C).
Notation rc := (root_coroot n C).
Let cart : Cartan_like n C := proj1 gd.
Let cart' : Cartan_like n (flip C) := proj1 gd'.
Lemma rc_up_co v w : rc v w -> up v -> RootMath.up n (flip C) w.
Proof. destruct (proj1 (proj2 gd)) as (d & D1 & D2 & D3). intros R. apply (up_coroot n C d cart D1 D2 D3 v w R). Qed.
Lemma rc_co_up v w : rc v w -> RootMath.up n (flip C) w -> up v.
Proof. destruct (proj1 (proj2 gd)) as (d & D1 & D2 & D3). intros R. apply (up_coroot n C d cart D1 D2 D3 v w R). Qed.
Lemma rc_unique v w w' : rc v w -> rc v w' -> w = w'.
Proof. destruct (proj1 (proj2 gd)) as (d & D1 & D2 & D3). apply (coroot_unique n C d cart D1 D2). Qed.
Lemma rc_sign v w i : rc v w -> (i < n)%nat -> (0 < pair v i <-> 0 < pairing n (flip C) w i) /\ (pair v i < 0 <-> pairing n (flip C) w i < 0).
Proof.
  intros R Hi. destruct (proj1 (proj2 gd)) as (d & D1 & D2 & D3).
  destruct (values_sign n C d cart D1 D2 v (basis n i) w (basis n i) R (rc_simple n C i Hi)) as [X Y].
  rewrite (value_basis_r n C v i Hi) in X, Y. rewrite <- (value_flip n C), (value_basis_r n (flip C) w i Hi) in X, Y. lia.
Qed.

Variable row : list (list Z).
Hypothesis rown : length row = n.
Hypothesis rowi : forall i s, get row i = Some s -> length s = n /\ forall j, (j < n)%nat -> co s j = C i j.
Variable g : gen.
Hypothesis gg : generated n C g.
Lemma ri_up a x : get (g_ri g) a = Some x -> up (r_root x).
Proof. intros G. apply (gn_in _ _ _ gg). apply (get_In _ a). apply get_map_some. exact G. Qed.
Lemma ri_before a b x y : get (g_ri g) a = Some x -> get (g_ri g) b = Some y -> before (r_root x) (r_root y) -> (a < b)%nat.
Proof. intros Ga Gb. apply (sorted_lt _ a b _ _ (gn_sorted _ _ _ gg)); apply get_map_some; assumption. Qed.
Lemma ri_inj a b x y : get (g_ri g) a = Some x -> get (g_ri g) b = Some y -> r_root x = r_root y -> a = b.
Proof.
  intros Ga Gb E. destruct (lt_eq_lt_dec a b) as [[L|Q]|L]; [|exact Q|].
  - exfalso. apply (before_irrefl (r_root x)). rewrite E at 2. apply (sorted_get _ _ (gn_sorted _ _ _ gg) a b); [exact L|apply get_map_some; exact Ga|apply get_map_some; exact Gb].
  - exfalso. apply (before_irrefl (r_root x)). rewrite E at 1. apply (sorted_get _ _ (gn_sorted _ _ _ gg) b a); [exact L|apply get_map_some; exact Gb|apply get_map_some; exact Ga].
Qed.
Lemma ri_simple i : (i < n)%nat -> exists x, get (g_ri g) i = Some x /\ r_root x = basis n i.
Proof.
  intros Hi. pose proof (sorted_simple n C _ cart (gn_sorted _ _ _ gg) (gn_in _ _ _ gg) i Hi) as G. rewrite get_map in G.
  destruct (get (g_ri g) i) as [x|]; [|discriminate]. exists x. split; [reflexivity|congruence].
Qed.
Lemma ri_long : (n <= length (g_ri g))%nat.
Proof. destruct (ri_simple (n - 1) ltac:(lia)) as (x & G & _). apply get_lt in G. lia. Qed.
Lemma ri_desc a x : get (g_ri g) a = Some x -> exists i, mem (r_desc x) i = true /\ (i < n)%nat.
Proof.
  intros G. pose proof (ri_up a x G) as U. destruct (gn_bits _ _ _ gg a x G) as (_ & _ & B).
  destruct (up_cases n C cart _ U) as [(i & Hi & E)|(i & u & Hi & _ & _ & _ & P & _)]; exists i; (split; [apply B; split; [exact Hi|]|exact Hi]); [|lia].
  rewrite E, pair_basis, (proj1 cart) by exact Hi. lia.
Qed.
Lemma ri_down a i x b : get (g_ri g) a = Some x -> mem (r_desc x) i = true -> (n <= a)%nat -> link_at (g_link g) a i = Ok b ->
  (b < a)%nat /\ (i < n)%nat /\ exists y, get (g_ri g) b = Some y /\ r_root y = sr i (r_root x).
Proof.
  intros G M Ha L. destruct (gn_bits _ _ _ gg a x G) as (_ & _ & B). apply B in M. destruct M as [Hi P].
  destruct (gn_link _ _ _ gg a i x G Hi) as (b' & Lb & Q). rewrite (link_lk _ _ _ _ Lb) in L. injection L as ->.
  destruct Q as [[E ->]|(N & y & Gy & Ey)].
  - exfalso. destruct (ri_simple i Hi) as (z & Gz & Ez). pose proof (ri_inj a i x z G Gz ltac:(congruence)). lia.
  - split; [|split; [exact Hi|exists y; split; assumption]]. apply (ri_before b a y x Gy G). left. rewrite Ey, (height_sr n C) by (try exact Hi; apply (ri_up a x G)). lia.
Qed.

Lemma make_coroots_ok : exists ri, make_coroots n row (g_link g) (g_ri g) = Ok ri /\ length ri = length (g_ri g) /\
  forall a x, get (g_ri g) a = Some x -> exists y, get ri a = Some y /\ agree x y /\ rc (r_root x) (r_coroot y).
Proof.
  unfold make_coroots. pose proof ri_long as RL. apply gives_none.
  eapply (gives_bind _ _ (fun r => length r = length (g_ri g) /\ forall a x, get (g_ri g) a = Some x -> exists y, get r a = Some y /\ agree x y /\ ((a < n)%nat -> rc (r_root x) (r_coroot y)))).
  { apply (gives_upto0 (fun k r => length r = length (g_ri g) /\ forall a x, get (g_ri g) a = Some x -> exists y, get r a = Some y /\ agree x y /\ ((a < k)%nat -> rc (r_root x) (r_coroot y)))).
    - split; [reflexivity|]. intros a x G. exists x. split; [exact G|]. split; [split; [reflexivity|split; [reflexivity|split; reflexivity]]|lia].
    - intros k r Hk (L & R). destruct (ri_simple k Hk) as (x & Gx & Ex). destruct (R k x Gx) as (y & Gy & Ay & _). rewrite (vget_ok _ _ _ Gy). cbn [bind].
      destruct (vput_ok r k (set_coroot (r_root y) y) ltac:(lia)) as (r1 & -> & L1 & G1). cbn [gives]. split; [lia|].
      intros a x' G. rewrite G1. destruct (Nat.eqb a k) eqn:Ea.
      + apply Nat.eqb_eq in Ea. subst a. rewrite Gx in G. injection G as <-. exists (set_coroot (r_root y) y). split; [reflexivity|]. cbn. split; [exact Ay|].
        intros _. destruct Ay as (-> & _). rewrite Ex. apply rc_simple. exact Hk.
      + apply Nat.eqb_neq in Ea. destruct (R a x' G) as (y' & Gy' & Ay' & Q). exists y'. split; [exact Gy'|]. split; [exact Ay'|]. intros Ha. apply Q. lia.
    - intros r Q. exact Q. }
  intros r0 (L0 & R0). cbn beta.
  eapply gives_mono.
  { apply (gives_upto (fun k r => length r = length (g_ri g) /\ forall a x, get (g_ri g) a = Some x -> exists y, get r a = Some y /\ agree x y /\ ((a < k)%nat -> rc (r_root x) (r_coroot y)))).
    - split; [exact L0|exact R0].
    - intros k r Hk (L & R). destruct (get_some (g_ri g) k ltac:(lia)) as [x Gx]. destruct (R k x Gx) as (y & Gy & Ay & _). rewrite (vget_ok _ _ _ Gy). cbn [bind].
      destruct (ri_desc k x Gx) as (i0 & M0 & Hi0). destruct (gn_bits _ _ _ gg k x Gx) as (W & _ & B). destruct (nfirst_ok _ _ W M0) as (Mi & Li & _).
      destruct Ay as (Er & Ep & Ed & Ea). rewrite Ed. set (i := nfirst (r_desc x)) in *. assert (Hi : (i < n)%nat) by lia.
      destruct (gn_link _ _ _ gg k i x Gx Hi) as (b & Lb & _). apply link_lk in Lb. rewrite Lb. cbn [bind].
      destruct (ri_down k i x b Gx Mi ltac:(lia) Lb) as (Lt & _ & z & Gz & Ez). destruct (R b z Gz) as (z' & Gz' & Az & Qz). specialize (Qz ltac:(lia)).
      rewrite (vget_ok _ _ _ Gz'). cbn [bind]. pose proof (ri_up b z Gz) as Uz. pose proof (rc_up_co _ _ Qz Uz) as Uw.
      pose proof (up_length _ _ _ Uw) as Lw. rewrite (vget_ok _ _ _ (get_co (r_coroot z') i ltac:(lia))). cbn [bind].
      destruct (get_some row i ltac:(lia)) as [s Gs]. rewrite (vget_ok _ _ _ Gs). cbn [bind].
      assert (Hrow : forall i s, get row i = Some s -> length s = n /\ forall j, (j < n)%nat -> co s j = flip C j i) by exact rowi.
      rewrite (dot_pair n (flip C) n1 gd' row rown Hrow _ i s Uw Hi Gs). cbn [bind].
      assert (Rx : rc (r_root x) (sreflect n (flip C) i (r_coroot z'))).
      { replace (r_root x) with (sr i (r_root z)); [apply rc_reflect; [exact Hi|exact Qz]|]. rewrite Ez. apply (sr_sr n C cart); [exact Hi|]. apply (up_length n C). apply (ri_up k x Gx). }
      rewrite (sr_vput n (flip C)); [|exact n1|exact gd'|exact Uw|exact Hi|apply (rc_up_co _ _ Rx); apply (ri_up k x Gx)]. cbn [bind].
      destruct (vput_ok r k (set_coroot (sreflect n (flip C) i (r_coroot z')) y) ltac:(lia)) as (r1 & -> & L1 & G1). cbn [gives]. split; [lia|].
      intros a x' G. rewrite G1. destruct (Nat.eqb a k) eqn:Eak.
      + apply Nat.eqb_eq in Eak. subst a. rewrite Gx in G. injection G as <-. eexists. split; [reflexivity|]. cbn. split; [split; [exact Er|split; [exact Ep|split; [exact Ed|exact Ea]]]|].
        intros _. exact Rx.
      + apply Nat.eqb_neq in Eak. destruct (R a x' G) as (y' & Gy' & Ay' & Q). exists y'. split; [exact Gy'|]. split; [exact Ay'|]. intros Ha. apply Q. lia. }
  intros r (L & R). split; [exact L|]. intros a x G. destruct (R a x G) as (y & Gy & Ay & Q). exists y. split; [exact Gy|]. split; [exact Ay|]. apply Q. pose proof (get_lt _ _ _ G). lia.
Qed.
Theorem coroots_table : exists ri, make_coroots n row (g_link g) (g_ri g) = Ok ri /\ table n C (g_link g) ri /\ StronglySorted before (map r_root ri).
Proof.
  destruct make_coroots_ok as (ri & E & L & R). exists ri. split; [exact E|].
  assert (Bk : forall a y, get ri a = Some y -> exists x, get (g_ri g) a = Some x /\ agree x y /\ rc (r_root x) (r_coroot y)).
  { intros a y G. destruct (get_some (g_ri g) a) as [x Gx]; [rewrite <- L; apply (get_lt _ _ _ G)|]. exists x. split; [exact Gx|].
    destruct (R a x Gx) as (y' & G' & Q). rewrite G in G'. injection G' as <-. exact Q. }
  assert (Em : map r_root ri = map r_root (g_ri g)).
  { apply vec_ext_all. intros k. rewrite !get_map. destruct (get (g_ri g) k) as [x|] eqn:G.
    - destruct (R k x G) as (y & -> & (-> & _) & _). reflexivity.
    - destruct (get ri k) as [y|] eqn:Gy; [|reflexivity]. destruct (Bk k y Gy) as (x & Gx & _). congruence. }
  split; [|rewrite Em; apply (gn_sorted _ _ _ gg)]. constructor.
  - intros a y G. destruct (Bk a y G) as (x & Gx & (-> & _) & Q). split; [exact Q|]. apply (ri_up a x Gx).
  - intros v U. apply (gn_in _ _ _ gg) in U. rewrite <- Em in U. apply in_map_iff in U. destruct U as (x & Ex & I). destruct (In_get _ _ I) as [a G]. exists a, x. split; assumption.
  - intros a b x y Ga Gb Q. destruct (Bk a x Ga) as (x' & Gx' & (Ex & _) & _). destruct (Bk b y Gb) as (y' & Gy' & (Ey & _) & _). apply (ri_inj a b x' y' Gx' Gy'). congruence.
  - intros i Hi. destruct (ri_simple i Hi) as (x & Gx & Ex). destruct (R i x Gx) as (y & Gy & (Ey & _) & _). exists y. split; [exact Gy|congruence].
  - intros a i y G Hi. destruct (Bk a y G) as (x & Gx & (Ey & _) & _). destruct (gn_link _ _ _ gg a i x Gx Hi) as (b & Lb & Q). exists b.
    split; [apply link_lk; exact Lb|]. destruct (ri_simple i Hi) as (z & Gz & Ez). destruct Q as [[Q ->]|(Q & w & Gw & Ew)].
    + left. split; [|reflexivity]. apply (ri_inj a i x z Gx Gz). congruence.
    + right. split; [intros ->; rewrite Gx in Gz; injection Gz as <-; congruence|]. destruct (R b w Gw) as (w' & Gw' & (Ew' & _) & _). exists w'. split; [exact Gw'|congruence].
  - intros a i y b G M Ha Lb. destruct (Bk a y G) as (x & Gx & (_ & _ & Ed & _) & _). rewrite Ed in M. apply (ri_down a i x b Gx M Ha Lb).
  - intros a y G. destruct (Bk a y G) as (x & Gx & (-> & _ & -> & ->) & _). apply (gn_bits _ _ _ gg a x Gx).
Qed.

(** ** Exchanging roots and coroots *)
Theorem table_swap link ri : table n C link ri -> table n (flip C) link (map swap_info ri).
Proof.
  intros T.
  assert (Bk : forall a y, get (map swap_info ri) a = Some y -> exists x, get ri a = Some x /\ y = swap_info x).
  { intros a y G. rewrite get_map in G. destruct (get ri a) as [x|]; [|discriminate]. exists x. split; [reflexivity|congruence]. }
  assert (Inv : forall v v' w w', rc v w -> rc v' w' -> w = w' -> v = v').
  { intros v v' w w' R R' ->. apply rc_flip in R, R'. destruct (proj1 (proj2 gd')) as (d & D1 & D2 & D3). apply (coroot_unique n (flip C) d cart' D1 D2 w' v v' R R'). }
  constructor.
  - intros a y G. destruct (Bk a y G) as (x & Gx & ->). destruct (t_rc _ _ _ _ T a x Gx) as [R U]. cbn. split; [apply rc_flip; exact R|apply (rc_up_co _ _ R U)].
  - intros w U. destruct (up_root n (flip C) w U) as [v R]. apply rc_flip in R. rewrite flip_flip in R. pose proof (rc_co_up v w R U) as Uv.
    destruct (t_all _ _ _ _ T v Uv) as (a & x & G & <-). exists a, (swap_info x). split; [apply get_map_some; exact G|]. cbn.
    destruct (t_rc _ _ _ _ T a x G) as [R' _]. apply (rc_unique _ _ _ R' R).
  - intros a b x y Ga Gb Q. destruct (Bk a x Ga) as (x' & Gx' & ->). destruct (Bk b y Gb) as (y' & Gy' & ->). cbn in Q. apply (t_inj _ _ _ _ T a b x' y' Gx' Gy').
    apply (Inv _ _ _ _ (proj1 (t_rc _ _ _ _ T a x' Gx')) (proj1 (t_rc _ _ _ _ T b y' Gy')) Q).
  - intros i Hi. destruct (t_simple _ _ _ _ T i Hi) as (x & Gx & Ex). exists (swap_info x). split; [apply get_map_some; exact Gx|]. cbn.
    pose proof (proj1 (t_rc _ _ _ _ T i x Gx)) as R. rewrite Ex in R. apply (rc_unique _ _ _ R (rc_simple n C i Hi)).
  - intros a i y G Hi. destruct (Bk a y G) as (x & Gx & ->). destruct (t_link _ _ _ _ T a i x Gx Hi) as (b & Lb & Q). exists b. split; [exact Lb|].
    destruct Q as [Q|(N & z & Gz & Ez)]; [left; exact Q|]. right. split; [exact N|]. exists (swap_info z). split; [apply get_map_some; exact Gz|]. cbn.
    pose proof (proj1 (t_rc _ _ _ _ T b z Gz)) as Rz. rewrite Ez in Rz. apply (rc_unique _ _ _ Rz). apply (rc_reflect n C i _ _ Hi). apply (t_rc _ _ _ _ T a x Gx).
  - intros a i y b G. destruct (Bk a y G) as (x & Gx & ->). cbn. apply (t_down _ _ _ _ T a i x b Gx).
  - intros a y G. destruct (Bk a y G) as (x & Gx & ->). cbn [swap_info r_desc r_asc r_root]. destruct (t_bits _ _ _ _ T a x Gx) as (B1 & B2 & B3).
    split; [exact B1|]. split; [exact B2|]. intros i. destruct (B3 i) as [X Y]. rewrite X, Y. pose proof (proj1 (t_rc _ _ _ _ T a x Gx)) as R.
    split; (split; intros [Hi P]; (split; [exact Hi|]); apply (rc_sign _ _ i R Hi); exact P).
Qed.
End Coroots.

(** ** Matrices that agree *)
Definition same_C (n : nat) (C D : nat -> nat -> Z) : Prop := forall i j, (i < n)%nat -> (j < n)%nat -> C i j = D i j.
Lemma same_sym n C D : same_C n C D -> same_C n D C. Proof. intros H i j Hi Hj. symmetry. apply H; assumption. Qed.
Lemma same_flip n C D : same_C n C D -> same_C n (flip C) (flip D). Proof. intros H i j Hi Hj. apply H; assumption. Qed.
Lemma pair_same n C D v i : same_C n C D -> (i < n)%nat -> pairing n C v i = pairing n D v i.
Proof. intros H Hi. apply zsum_ext. intros j Hj. rewrite (H j i Hj Hi). reflexivity. Qed.
Lemma sr_same n C D v i : same_C n C D -> (i < n)%nat -> sreflect n C i v = sreflect n D i v.
Proof. intros H Hi. unfold sreflect. rewrite (pair_same n C D v i H Hi). reflexivity. Qed.
Lemma rc_same n C D v w : same_C n C D -> root_coroot n C v w -> root_coroot n D v w.
Proof.
  intros H R. induction R as [i Hi|i v w Hi R IH]; [apply rc_simple; exact Hi|].
  rewrite (sr_same n C D v i H Hi), (sr_same n (flip C) (flip D) w i (same_flip n C D H) Hi). apply rc_reflect; assumption.
Qed.
Lemma up_same n C D v : same_C n C D -> up n C v -> up n D v.
Proof.
  intros H R. induction R as [i Hi|i v Hi R IH P]; [apply up_simple; exact Hi|].
  rewrite (sr_same n C D v i H Hi). apply up_reflect; [exact Hi|exact IH|]. rewrite <- (pair_same n C D v i H Hi). exact P.
Qed.
Lemma table_same n C D link ri : same_C n C D -> table n C link ri -> table n D link ri.
Proof.
  intros H T. constructor.
  - intros a x G. destruct (t_rc _ _ _ _ T a x G) as [R U]. split; [apply (rc_same n C D); assumption|apply (up_same n C D); assumption].
  - intros v U. apply (t_all _ _ _ _ T). apply (up_same n D C); [apply same_sym; exact H|exact U].
  - apply (t_inj _ _ _ _ T).
  - apply (t_simple _ _ _ _ T).
  - intros a i x G Hi. rewrite <- (sr_same n C D _ i H Hi). apply (t_link _ _ _ _ T a i x G Hi).
  - apply (t_down _ _ _ _ T).
  - intros a x G. destruct (t_bits _ _ _ _ T a x G) as (B1 & B2 & B3). split; [exact B1|]. split; [exact B2|]. intros i. destruct (B3 i) as [X Y]. rewrite X, Y.
    split; (split; intros [Hi P]; (split; [exact Hi|]); [rewrite <- (pair_same n C D _ i H Hi)|rewrite (pair_same n C D _ i H Hi)]; exact P).
Qed.
Lemma rc_laced n C v w : same_C n C (flip C) -> root_coroot n C v w -> v = w.
Proof. intros H R. induction R as [i Hi|i v w Hi R IH]; [reflexivity|]. rewrite IH. apply sr_same; assumption. Qed.
