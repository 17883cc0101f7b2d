(** The tables of permutations and ladder bottoms are filled correctly. *)

From Coq Require Import List Arith ZArith Bool Lia Sorted.
From Verif Require Import VecModel VecProofs RunModel RunProofs MatModel MatSpec MatRing MatLin SizeModel BitsetSpec DynBits DynkinModel LieTypeSpec RootModel RootSpec RootMath RootForm RootFin RootBase RootGen RootCo RootPerm.
Import ListNotations.
Local Open Scope Z_scope.

Definition like (x y : root_info) : Prop := r_root y = r_root x /\ r_coroot y = r_coroot x /\ r_desc y = r_desc x /\ r_asc y = r_asc x.

Section Make.
Variables (n : nat) (C : nat -> nat -> Z) (link : list (list (option nat))) (ri : list root_info).
Hypothesis n1 : (1 <= n <= 32)%nat.
Hypothesis gd : good n C.
Hypothesis gd' : good n (flip C).
Hypothesis T : table n C link ri.
Let T' : table n (flip C) link (map swap_info ri) := table_swap n C n1 gd gd' link ri T.
Let cart : Cartan_like n C := proj1 gd.
Notation np := (length ri).
Notation nr := (nv r_root ri).
Notation e := (basis n).
Notation bok := (bot_ok n C ri).
Notation cok := (bot_ok n (flip C) (map swap_info ri)).
Lemma acts_co p r c : root_coroot n C r c -> acts n C ri p r c -> acts n (flip C) (map swap_info ri) p c r.
Proof.
  intros R [L A]. split; [rewrite map_length; exact L|]. rewrite map_length. intros b Hb. destruct (A b Hb) as (b' & G & Hb' & E). exists b'.
  split; [exact G|]. split; [exact Hb'|]. rewrite !nv_swap. pose proof (nr_rc n C link ri gd T b' Hb') as R'. rewrite E in R'.
  apply (rc_unique n C gd _ _ _ R'). apply (reflect_root n C cart r c _ _ R). apply (nr_rc n C link ri gd T b Hb).
Qed.

Section Simple.
Variable i : nat.
Hypothesis Hi : (i < n)%nat.
Definition lnk (a : nat) : nat := match link_at link a i with Ok b => b | Fail _ => 0%nat end.
Lemma lnk_at a x : get ri a = Some x -> link_at link a i = Ok (lnk a).
Proof. intros G. destruct (t_link _ _ _ _ T a i x G Hi) as (b & E & _). unfold lnk. rewrite E. reflexivity. Qed.
Lemma lnk_table D rs : table n D link rs -> forall a x, get rs a = Some x -> (lnk a < length rs)%nat /\ (a = i -> lnk a = i) /\ (a <> i -> exists y, get rs (lnk a) = Some y /\ r_root y = sreflect n D i (r_root x)).
Proof.
  intros TD a x G. destruct (t_link _ _ _ _ TD a i x G Hi) as (b & E & Q). unfold lnk. rewrite E. destruct Q as [[-> ->]|(N & y & Gy & Ey)].
  - split; [apply (get_lt _ _ _ G)|]. split; [reflexivity|congruence].
  - split; [apply (get_lt _ _ _ Gy)|]. split; [congruence|]. intros _. exists y. split; assumption.
Qed.
Definition marked (D : nat -> nat -> Z) (rs : list root_info) (k : nat) (B : bset) : Prop :=
  length B = (2 * np)%nat /\ forall b, (b < 2 * np)%nat -> (bmem B b = true <-> exists a, (a < k)%nat /\ bt n D rs i a /\ (b = pos_nr np a \/ b = neg_nr np (lnk a))).
Lemma marked_step D rs k B B' t : marked D rs k B -> length B' = length B -> (t = true <-> bt n D rs i k) ->
  (forall b, bmem B' b = bmem B b || (t && (Nat.eqb b (pos_nr np k) || Nat.eqb b (neg_nr np (lnk k))))) -> marked D rs (S k) B'.
Proof.
  intros [L H] L' Ht HB. split; [lia|]. intros b Hb. rewrite HB, orb_true_iff, andb_true_iff, orb_true_iff, !Nat.eqb_eq, (H b Hb), Ht. split.
  - intros [(a & Ha & Q)|[Q1 Q2]]; [exists a; split; [lia|exact Q]|exists k; split; [lia|split; assumption]].
  - intros (a & Ha & Q1 & Q2). destruct (Nat.eq_dec a k) as [->|N]; [right; split; assumption|left; exists a; split; [lia|split; assumption]].
Qed.
Definition permed (k : nat) (p : list nat) : Prop := length p = (2 * np)%nat /\ forall a, (a < k)%nat ->
  (a <> i -> get p (pos_nr np a) = Some (pos_nr np (lnk a)) /\ get p (neg_nr np a) = Some (neg_nr np (lnk a))) /\
  (a = i -> get p (pos_nr np i) = Some (neg_nr np i) /\ get p (neg_nr np i) = Some (pos_nr np i)).
Lemma permed_step k p x y : (k < np)%nat -> permed k p -> (k <> i -> x = pos_nr np (lnk k) /\ y = neg_nr np (lnk k)) -> (k = i -> x = neg_nr np i /\ y = pos_nr np i) ->
  exists p1 p2, vput p (pos_nr np k) x = Ok p1 /\ vput p1 (neg_nr np k) y = Ok p2 /\ permed (S k) p2.
Proof.
  intros Hk [L H] A1 A2. destruct (vput_ok p (pos_nr np k) x ltac:(unfold pos_nr; lia)) as (p1 & E1 & L1 & G1).
  destruct (vput_ok p1 (neg_nr np k) y ltac:(unfold neg_nr; lia)) as (p2 & E2 & L2 & G2). exists p1, p2. split; [exact E1|]. split; [exact E2|]. split; [lia|].
  assert (P : get p2 (pos_nr np k) = Some x).
  { rewrite G2, G1, Nat.eqb_refl. destruct (Nat.eqb_spec (pos_nr np k) (neg_nr np k)) as [Q|_]; [unfold pos_nr, neg_nr in Q; lia|reflexivity]. }
  assert (N : get p2 (neg_nr np k) = Some y) by (rewrite G2, Nat.eqb_refl; reflexivity).
  assert (O : forall a, (a < k)%nat -> get p2 (pos_nr np a) = get p (pos_nr np a) /\ get p2 (neg_nr np a) = get p (neg_nr np a)).
  { intros a Ha. rewrite !G2, !G1. unfold pos_nr, neg_nr.
    rewrite (proj2 (Nat.eqb_neq (np + a) (np - 1 - k))), (proj2 (Nat.eqb_neq (np + a) (np + k))), (proj2 (Nat.eqb_neq (np - 1 - a) (np - 1 - k))), (proj2 (Nat.eqb_neq (np - 1 - a) (np + k))) by lia.
    split; reflexivity. }
  intros a Ha. destruct (Nat.eq_dec a k) as [->|Na].
  - rewrite P, N. split; [intros Q; destruct (A1 Q) as [-> ->]; split; reflexivity|]. intros Q. rewrite Q in P, N. destruct (A2 Q) as [-> ->]. split; assumption.
  - destruct (O a ltac:(lia)) as [-> ->]. destruct (H a ltac:(lia)) as [H1 H2]. split; [exact H1|]. intros Q. rewrite <- Q. destruct (O a ltac:(lia)) as [-> ->]. rewrite Q. exact (H2 Q).
Qed.
Lemma simple_perm_ok : exists p b c, simple_perm ri link i = Ok (p, b, c) /\ acts n C ri p (e i) (e i) /\ bok (pos_nr np i) b /\ cok (pos_nr np i) c.
Proof.
  assert (Li : (i < np)%nat) by (destruct (t_simple _ _ _ _ T i Hi) as (x & G & _); apply (get_lt _ _ _ G)).
  set (I := fun k (s : list nat * bset * bset) => let '(p, b, c) := s in permed k p /\ marked C ri k b /\ marked (flip C) (map swap_info ri) k c).
  destruct (gives_none (simple_perm ri link i) (I np)) as (s & E & Q).
  { unfold simple_perm. apply (gives_upto0 I).
    - unfold I. assert (Z0 : forall D rs, marked D rs 0 (repeat false (2 * np))).
      { intros D rs. split; [apply repeat_length|]. intros b Hb. split; [|intros (a & Ha & _); lia]. intros Q.
        pose proof (bmem_get (repeat false (2 * np)) b ltac:(rewrite repeat_length; exact Hb)) as G. rewrite get_repeat in G by exact Hb. congruence. }
      split; [split; [apply repeat_length|intros; lia]|]. split; apply Z0.
    - intros k [ [p b] c] Hk (P & B & Co). destruct (get_some ri k Hk) as [x G]. pose proof (lnk_at k x G) as Lk. destruct (lnk_table C ri T k x G) as (Ll & Q1 & Q2).
      assert (G' : get (map swap_info ri) k = Some (swap_info x)) by (apply get_map_some; exact G).
      pose proof (proj1 B) as LB. pose proof (proj1 Co) as LC.
      destruct (Nat.eqb_spec k i) as [Ei|Ni].
      + destruct (permed_step k p (neg_nr np k) (pos_nr np k) Hk P) as (p1 & p2 & -> & Ep2 & P2); [congruence|intros _; rewrite Ei; split; reflexivity|]. cbn [bind]. rewrite Ep2. cbn [bind].
        destruct (bins2_ok b (pos_nr np k) (neg_nr np k) true ltac:(unfold pos_nr; lia) ltac:(unfold neg_nr; lia)) as (b2 & Eb & Lb & Hb).
        destruct (bins_ok b (pos_nr np k) ltac:(unfold pos_nr; lia)) as (b1 & Eb1 & _). rewrite Eb1 in *. cbn [bind] in *. rewrite Eb. cbn [bind].
        destruct (bins2_ok c (pos_nr np k) (neg_nr np k) true ltac:(unfold pos_nr; lia) ltac:(unfold neg_nr; lia)) as (c2 & Ec & Lc & Hc).
        destruct (bins_ok c (pos_nr np k) ltac:(unfold pos_nr; lia)) as (c1 & Ec1 & _). rewrite Ec1 in *. cbn [bind] in *. rewrite Ec. cbn [bind gives].
        assert (El : lnk k = k) by (rewrite (Q1 Ei); congruence). unfold I. split; [exact P2|]. split.
        * apply (marked_step C ri k b b2 true B Lb); [split; [intros _|reflexivity]|rewrite El; exact Hb]. unfold bt. rewrite (nv_pos ri r_root k x G).
          destruct (t_simple _ _ _ _ T i Hi) as (z & Gz & Ez). assert (z = x) by congruence. subst z. rewrite Ez. apply (zero_not_root n C n1 gd); [apply away_length|]. intros j. rewrite co_away by apply basis_length. lia.
        * apply (marked_step (flip C) (map swap_info ri) k c c2 true Co Lc); [split; [intros _|reflexivity]|rewrite El; exact Hc]. unfold bt. rewrite (nv_pos _ r_root k _ G').
          destruct (t_simple _ _ _ _ T' i Hi) as (z & Gz & Ez). assert (z = swap_info x) by congruence. subst z. rewrite Ez. apply (zero_not_root n (flip C) n1 gd'); [apply away_length|]. intros j. rewrite co_away by apply basis_length. lia.
      + rewrite Lk. cbn [bind]. destruct (permed_step k p (pos_nr np (lnk k)) (neg_nr np (lnk k)) Hk P) as (p1 & p2 & -> & Ep2 & P2); [intros _; split; reflexivity|congruence|]. cbn [bind]. rewrite Ep2. cbn [bind].
        rewrite (vget_ok _ _ _ G). cbn [bind]. destruct (is_bottom_ok n C link ri n1 gd T i k x G Hi Ni) as (t & -> & Ht). cbn [bind].
        destruct (bins2_ok b (pos_nr np k) (neg_nr np (lnk k)) t ltac:(unfold pos_nr; lia) ltac:(unfold neg_nr; lia)) as (b2 & -> & Lb & Hb). cbn [bind].
        rewrite is_bottom_swap. change (r_coroot x) with (r_root (swap_info x)).
        destruct (is_bottom_ok n (flip C) link (map swap_info ri) n1 gd' T' i k (swap_info x) G' Hi Ni) as (u & -> & Hu). cbn [bind].
        destruct (bins2_ok c (pos_nr np k) (neg_nr np (lnk k)) u ltac:(unfold pos_nr; lia) ltac:(unfold neg_nr; lia)) as (c2 & -> & Lc & Hc). cbn [bind gives].
        unfold I. split; [exact P2|]. split.
        * apply (marked_step C ri k b b2 t B Lb); [|exact Hb]. unfold bt. rewrite (nv_pos ri r_root k x G). exact Ht.
        * apply (marked_step (flip C) (map swap_info ri) k c c2 u Co Lc); [|exact Hc]. unfold bt. rewrite (nv_pos _ r_root k _ G'). exact Hu.
    - intros s Q. exact Q. }
  destruct s as [ [p b] c]. destruct Q as ([Lp P] & [LB B] & [LC Co]). exists p, b, c. split; [exact E|]. split; [|split].
  - destruct (P i Li) as [_ Pi]. destruct (Pi eq_refl) as [P1 P2]. apply (simple_acts n C link ri n1 gd T i Hi lnk (lnk_table C ri T) p Lp); [|exact P1|exact P2].
    intros a Ha Na. exact (proj1 (P a Ha) Na).
  - apply (simple_bots n C link ri n1 gd T i Hi lnk (lnk_table C ri T) b LB). exact B.
  - assert (El : length (map swap_info ri) = np) by apply map_length.
    pose proof (simple_bots n (flip C) link (map swap_info ri) n1 gd' T' i Hi lnk (lnk_table (flip C) _ T') c) as S. rewrite El in S. apply (S LC Co).
Qed.
End Simple.

(** ** All roots *)
Definition entry_ok (a : nat) (x : root_info) (s : list root_info * list bset * list bset) : Prop :=
  let '(rs, bot, cobot) := s in
  (exists y, get rs a = Some y /\ acts n C ri (r_perm y) (r_root x) (r_coroot x)) /\
  (exists B, get bot (pos_nr np a) = Some B /\ bok (pos_nr np a) B) /\ (exists B, get cobot (pos_nr np a) = Some B /\ cok (pos_nr np a) B).
Definition Inv (k : nat) (s : list root_info * list bset * list bset) : Prop :=
  let '(rs, bot, cobot) := s in
  length rs = np /\ length bot = (2 * np)%nat /\ length cobot = (2 * np)%nat /\
  (forall a x, get ri a = Some x -> exists y, get rs a = Some y /\ like x y) /\
  forall a x, get ri a = Some x -> (a < k)%nat -> entry_ok a x s.
Lemma inv_step k x y0 p b c rs bot cobot : Inv k (rs, bot, cobot) -> get ri k = Some x -> get rs k = Some y0 -> acts n C ri p (r_root x) (r_coroot x) ->
  bok (pos_nr np k) b -> cok (pos_nr np k) c ->
  exists rs1 bot1 cobot1, vput rs k (set_perm p y0) = Ok rs1 /\ vput bot (pos_nr np k) b = Ok bot1 /\ vput cobot (pos_nr np k) c = Ok cobot1 /\ Inv (S k) (rs1, bot1, cobot1).
Proof.
  intros (L1 & L2 & L3 & A & B) G G0 P Hb Hc. pose proof (get_lt _ _ _ G) as Hk.
  destruct (vput_ok rs k (set_perm p y0) ltac:(lia)) as (rs1 & E1 & K1 & H1). destruct (vput_ok bot (pos_nr np k) b ltac:(unfold pos_nr; lia)) as (bot1 & E2 & K2 & H2).
  destruct (vput_ok cobot (pos_nr np k) c ltac:(unfold pos_nr; lia)) as (cobot1 & E3 & K3 & H3). exists rs1, bot1, cobot1.
  split; [exact E1|]. split; [exact E2|]. split; [exact E3|]. unfold Inv. split; [lia|]. split; [lia|]. split; [lia|]. split.
  - intros a x' G'. rewrite H1. destruct (Nat.eqb a k) eqn:Ea; [|apply (A a x' G')]. apply Nat.eqb_eq in Ea. subst a. rewrite G in G'. injection G' as <-.
    exists (set_perm p y0). split; [reflexivity|]. destruct (A k x G) as (y & Gy & Q). rewrite G0 in Gy. injection Gy as <-. exact Q.
  - intros a x' G' Ha. unfold entry_ok. rewrite H1, H2, H3. destruct (Nat.eqb a k) eqn:Ea.
    + apply Nat.eqb_eq in Ea. subst a. rewrite G in G'. injection G' as <-. rewrite Nat.eqb_refl.
      split; [exists (set_perm p y0); split; [reflexivity|exact P]|]. split; [exists b; split; [reflexivity|exact Hb]|exists c; split; [reflexivity|exact Hc]].
    + apply Nat.eqb_neq in Ea. rewrite (proj2 (Nat.eqb_neq (pos_nr np a) (pos_nr np k))) by (unfold pos_nr; lia). apply (B a x' G'). lia.
Qed.
Lemma perm_simple_ok i s : (i < n)%nat -> Inv i s -> gives (perm_simple link ri i s) (Inv (S i)) none.
Proof.
  destruct s as [ [rs bot] cobot]. intros Hi Iv. unfold perm_simple. destruct (simple_perm_ok i Hi) as (p & b & c & -> & P & Hb & Hc). cbn [bind].
  destruct (t_simple _ _ _ _ T i Hi) as (x & G & E). pose proof (proj1 (t_rc _ _ _ _ T i x G)) as R. rewrite E in R. pose proof (rc_unique n C gd _ _ _ R (rc_simple n C i Hi)) as Ec.
  pose proof Iv as (_ & _ & _ & A & _). destruct (A i x G) as (y & Gy & _). rewrite (vget_ok _ _ _ Gy). cbn [bind].
  destruct (inv_step i x y p b c rs bot cobot Iv G Gy ltac:(rewrite E, Ec; exact P) Hb Hc) as (rs1 & bot1 & cobot1 & -> & -> & -> & Q). cbn [bind gives]. exact Q.
Qed.
Lemma desc_first a x : get ri a = Some x -> mem (r_desc x) (nfirst (r_desc x)) = true /\ (nfirst (r_desc x) < n)%nat.
Proof.
  intros G. destruct (t_bits _ _ _ _ T a x G) as (W & _ & B). pose proof (proj2 (t_rc _ _ _ _ T a x G)) as U.
  assert (exists i, mem (r_desc x) i = true) as [i M].
  { destruct (up_cases n C cart _ U) as [(i & Hi & E)|(i & u & Hi & _ & _ & _ & P & _)]; exists i; apply B; (split; [exact Hi|]); [|lia].
    rewrite E, pair_basis, (proj1 cart) by exact Hi. lia. }
  destruct (nfirst_ok _ _ W M) as (M' & _ & _). split; [exact M'|]. apply B in M'. tauto.
Qed.
Lemma down_link a x : get ri a = Some x -> (n <= a)%nat -> let i := nfirst (r_desc x) in
  exists b z, link_at link a i = Ok b /\ (b < a)%nat /\ get ri b = Some z /\ r_root x = sreflect n C i (r_root z) /\ r_coroot x = sreflect n (flip C) i (r_coroot z).
Proof.
  intros G Ha i. destruct (desc_first a x G) as [M Hi]. fold i in M, Hi. destruct (t_link _ _ _ _ T a i x G Hi) as (b & Lb & Q).
  destruct Q as [[Q _]|(N & z & Gz & Ez)]; [lia|]. exists b, z. split; [exact Lb|]. split; [apply (t_down _ _ _ _ T a i x b G M Ha Lb)|]. split; [exact Gz|].
  pose proof (up_length n C _ (proj2 (t_rc _ _ _ _ T a x G))) as Lx.
  assert (E : r_root x = sreflect n C i (r_root z)) by (rewrite Ez; symmetry; apply (sr_sr n C cart); assumption). split; [exact E|].
  pose proof (proj1 (t_rc _ _ _ _ T a x G)) as R. rewrite E in R. apply (rc_unique n C gd _ _ _ R). apply rc_reflect; [exact Hi|]. apply (t_rc _ _ _ _ T b z Gz).
Qed.
Lemma perm_extend_ok a s : (n <= a < np)%nat -> Inv a s -> gives (perm_extend link np a s) (Inv (S a)) none.
Proof.
  destruct s as [ [rs bot] cobot]. intros Ha Iv. unfold perm_extend. destruct (get_some ri a ltac:(lia)) as [x G]. pose proof Iv as (L1 & L2 & L3 & A & B).
  destruct (A a x G) as (y & Gy & Ly). rewrite (vget_ok _ _ _ Gy). cbn [bind]. destruct Ly as (_ & _ & Ed & _). rewrite Ed.
  destruct (desc_first a x G) as [_ Hi]. destruct (down_link a x G ltac:(lia)) as (b & z & Lb & Hb & Gz & Ex & Ec). cbn zeta in *. set (i := nfirst (r_desc x)) in *.
  rewrite Lb. cbn [bind]. destruct (t_simple _ _ _ _ T i Hi) as (xi & Gi & Ei). pose proof (proj1 (t_rc _ _ _ _ T i xi Gi)) as Ri. rewrite Ei in Ri. pose proof (rc_unique n C gd _ _ _ Ri (rc_simple n C i Hi)) as Eci.
  destruct (B i xi Gi ltac:(lia)) as ((yi & Gyi & Pi) & _). rewrite (vget_ok _ _ _ Gyi). cbn [bind]. rewrite Ei, Eci in Pi.
  destruct (B b z Gz Hb) as ((yb & Gyb & Pb) & (Bb & GBb & HBb) & (Cb & GCb & HCb)). rewrite (vget_ok _ _ _ Gyb). cbn [bind].
  pose proof (proj1 (t_rc _ _ _ _ T b z Gz)) as Rz.
  destruct (acts_conj n C link ri n1 gd T i (r_perm yi) (r_perm yb) _ _ Hi Rz Pi Pb) as (p1 & p2 & -> & E2 & P2). cbn [bind]. rewrite E2. cbn [bind].
  rewrite <- Ex, <- Ec in P2.
  assert (Hnp : forall k, (k < np)%nat -> (pos_nr np k < 2 * np)%nat) by (intros k Hk; unfold pos_nr; lia).
  assert (Lz : length (r_root z) = n) by (apply (root_coroot_length n C _ _ Rz)). assert (Lcz : length (r_coroot z) = n) by (apply (root_coroot_length n C _ _ Rz)).
  destruct (image_bot n C link ri n1 gd T (r_perm yi) (e i) (e i) (pos_nr np b) (pos_nr np a) Bb) as (B1 & EB1 & HB1); [apply rc_simple; exact Hi|exact Pi|apply Hnp; lia|apply Hnp; lia| |exact HBb|].
  { rewrite (nv_pos ri r_root a x G), (nv_pos ri r_root b z Gz), reflect_simple by assumption. exact Ex. }
  destruct (image_bot n (flip C) link (map swap_info ri) n1 gd' T' (r_perm yi) (e i) (e i) (pos_nr np b) (pos_nr np a) Cb) as (C1 & EC1 & HC1);
    [apply rc_simple; exact Hi|apply acts_co; [apply rc_simple; exact Hi|exact Pi]|rewrite map_length; apply Hnp; lia|rewrite map_length; apply Hnp; lia| |exact HCb|].
  { rewrite !nv_swap, (nv_pos ri r_coroot a x G), (nv_pos ri r_coroot b z Gz), reflect_simple by assumption. exact Ec. }
  rewrite map_length in EC1.
  destruct (inv_step a x y p2 B1 C1 rs bot cobot Iv G Gy P2 HB1 HC1) as (rs1 & bot1 & cobot1 & -> & E3 & E4 & Q). cbn [bind].
  rewrite (vget_ok _ _ _ GBb). cbn [bind]. rewrite EB1. cbn [bind]. rewrite E3. cbn [bind]. rewrite (vget_ok _ _ _ GCb). cbn [bind]. rewrite EC1. cbn [bind]. rewrite E4. cbn [bind gives]. exact Q.
Qed.
Definition InvN (k : nat) (s : list root_info * list bset * list bset) : Prop :=
  Inv np s /\ let '(rs, bot, cobot) := s in forall a, (a < k)%nat ->
    (exists B, get bot (neg_nr np a) = Some B /\ bok (neg_nr np a) B) /\ (exists B, get cobot (neg_nr np a) = Some B /\ cok (neg_nr np a) B).
Lemma perm_neg_ok a s : (a < np)%nat -> InvN a s -> gives (perm_neg np a s) (InvN (S a)) none.
Proof.
  destruct s as [ [rs bot] cobot]. intros Ha [Iv N]. unfold perm_neg. destruct (get_some ri a ltac:(lia)) as [x G]. pose proof Iv as (L1 & L2 & L3 & A & B).
  destruct (B a x G Ha) as ((y & Gy & P) & (Ba & GB & HB) & (Ca & GC & HC)). rewrite (vget_ok _ _ _ Gy). cbn [bind]. rewrite (vget_ok _ _ _ GB). cbn [bind].
  pose proof (proj1 (t_rc _ _ _ _ T a x G)) as R.
  assert (Hp : (pos_nr np a < 2 * np)%nat) by (unfold pos_nr; lia). assert (Hn : (neg_nr np a < 2 * np)%nat) by (unfold neg_nr; lia).
  destruct (image_bot n C link ri n1 gd T (r_perm y) (r_root x) (r_coroot x) (pos_nr np a) (neg_nr np a) Ba R P Hp Hn) as (B1 & -> & HB1); [|exact HB|].
  { rewrite (nv_pos ri r_root a x G), (nv_neg ri r_root a x G). symmetry. apply (reflect_self n C cart _ _ R). }
  cbn [bind]. destruct (vput_ok bot (neg_nr np a) B1 ltac:(lia)) as (bot1 & -> & K1 & H1). cbn [bind]. rewrite (vget_ok _ _ _ GC). cbn [bind].
  destruct (image_bot n (flip C) link (map swap_info ri) n1 gd' T' (r_perm y) (r_coroot x) (r_root x) (pos_nr np a) (neg_nr np a) Ca) as (C1 & EC1 & HC1);
    [apply rc_flip; exact R|apply acts_co; assumption|rewrite map_length; exact Hp|rewrite map_length; exact Hn| |exact HC|].
  { rewrite !nv_swap, (nv_pos ri r_coroot a x G), (nv_neg ri r_coroot a x G). symmetry. apply (reflect_self n (flip C) (proj1 gd')). apply rc_flip. exact R. }
  rewrite map_length in EC1. rewrite EC1. cbn [bind]. destruct (vput_ok cobot (neg_nr np a) C1 ltac:(lia)) as (cobot1 & -> & K2 & H2). cbn [bind gives].
  unfold InvN, Inv. split.
  - split; [exact L1|]. split; [lia|]. split; [lia|]. split; [exact A|]. intros a' x' G' Ha'. unfold entry_ok. rewrite H1, H2.
    rewrite (proj2 (Nat.eqb_neq (pos_nr np a') (neg_nr np a))) by (unfold pos_nr, neg_nr; lia). apply (B a' x' G' Ha').
  - intros a' Ha'. rewrite H1, H2. destruct (Nat.eq_dec a' a) as [->|Na].
    + rewrite Nat.eqb_refl. split; [exists B1|exists C1]; (split; [reflexivity|assumption]).
    + rewrite (proj2 (Nat.eqb_neq (neg_nr np a') (neg_nr np a))) by (unfold neg_nr; lia). apply N. lia.
Qed.
Lemma np_long : (n <= np)%nat.
Proof. destruct (t_simple _ _ _ _ T (n - 1) ltac:(lia)) as (x & G & _). apply get_lt in G. lia. Qed.
Theorem make_perms_ok : exists rs bot cobot, make_perms n link ri = Ok (rs, bot, cobot) /\ length rs = np /\ length bot = (2 * np)%nat /\ length cobot = (2 * np)%nat /\
  (forall a x, get ri a = Some x -> exists y, get rs a = Some y /\ like x y /\ acts n C ri (r_perm y) (r_root x) (r_coroot x)) /\
  (forall a, (a < 2 * np)%nat -> (exists B, get bot a = Some B /\ bok a B) /\ (exists B, get cobot a = Some B /\ cok a B)).
Proof.
  pose proof np_long as NL.
  assert (Q : exists s, make_perms n link ri = Ok s /\ InvN np s).
  { apply gives_none. unfold make_perms. eapply (gives_bind _ _ (Inv n)).
    { apply (gives_upto0 Inv).
      - unfold Inv. split; [reflexivity|]. split; [apply repeat_length|]. split; [apply repeat_length|]. split; [|intros; lia].
        intros a x G. exists x. split; [exact G|]. split; [reflexivity|split; [reflexivity|split; reflexivity]].
      - intros i s Hi. apply perm_simple_ok. exact Hi.
      - intros s Q. exact Q. }
    intros s1 I1. eapply (gives_bind _ _ (Inv np)).
    { eapply gives_mono; [apply (gives_upto Inv); [exact I1|]|].
      - intros a s Ha. apply perm_extend_ok. lia.
      - intros s Q. replace (n + (np - n))%nat with np in Q by lia. exact Q. }
    intros s2 I2. apply (gives_upto0 InvN).
    - split; [exact I2|]. destruct s2 as [ [rs bot] cobot]. intros; lia.
    - intros a s Ha. apply perm_neg_ok. exact Ha.
    - intros s Q. exact Q. }
  destruct Q as ([ [rs bot] cobot] & E & [ (L1 & L2 & L3 & A & B) N]). exists rs, bot, cobot. split; [exact E|]. split; [exact L1|]. split; [exact L2|]. split; [exact L3|]. split.
  - intros a x G. destruct (A a x G) as (y & Gy & Ly). exists y. split; [exact Gy|]. split; [exact Ly|]. destruct (B a x G (get_lt _ _ _ G)) as ((y' & Gy' & P) & _). congruence.
  - intros b Hb. destruct (nr_cases ri b Hb) as (a & x & G & La & [->| ->]); [|apply N; exact La]. destruct (B a x G La) as (_ & Q). exact Q.
Qed.
End Make.
