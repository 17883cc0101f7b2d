(** The order of the roots, and bases of subsystems. *)

From Coq Require Import List Arith ZArith Bool Lia Sorted.
From Verif Require Import VecModel VecProofs RunModel RunProofs MatModel MatSpec MatRing MatLin MatProofs MatOps SizeModel BitsetSpec DynBits DynkinModel LieTypeSpec RatVecMore RootModel RootSpec RootMath RootForm RootFin RootBase RootGen RootCo RootPerm RootMake RootSys RootAcc RootLook.
Import ListNotations.
Local Open Scope Z_scope.

Lemma height_away n v c r : length v = n -> length r = n -> height (away n v c r) = height v - c * height r.
Proof.
  intros Lv Lr. rewrite !height_zsum, away_length, Lv, Lr.
  rewrite (zsum_ext n _ (fun k => co v k + - c * co r k)) by (intros k _; rewrite co_away by assumption; lia). rewrite zsum_add, zsum_mul_l. lia.
Qed.
Lemma height_plus n v w : length v = n -> length w = n -> height (plus n v w) = height v + height w.
Proof. intros Lv Lw. rewrite <- (opp_opp w), <- away_plus, height_away by (rewrite ?opp_length; assumption). rewrite height_opp, opp_opp. lia. Qed.
Lemma value_plus_l n C v w u : length v = n -> length w = n -> value n C (plus n v w) u = value n C v u + value n C w u.
Proof. intros Lv Lw. rewrite <- (opp_opp w), <- away_plus, value_away_l by (rewrite ?opp_length; assumption). rewrite value_opp_l, opp_opp. lia. Qed.

Section Order.
Variables (n : nat) (C : nat -> nat -> Z) (s : rootsys).
Hypothesis n1 : (1 <= n <= 32)%nat.
Hypothesis gd : good n C.
Hypothesis gd' : good n (flip C).
Hypothesis Y : system n C s.
Hypothesis So : StronglySorted before (map (order (s_prefer s)) (s_ri s)).
Notation np := (num_pos s).
Notation ri := (s_ri s).
Notation rt := (rt s).
Notation crt := (crt s).
Notation pair := (pairing n C).
(** the vector that decides the order *)
Definition ord (a : nat) : list Z := nv (order (s_prefer s)) ri a.
Lemma ord_cases a : ord a = if s_prefer s then crt a else rt a. Proof. unfold ord, order. destruct (s_prefer s); reflexivity. Qed.
Lemma ord_lt a b : (np <= a < 2 * np)%nat -> (np <= b < 2 * np)%nat -> before (ord a) (ord b) -> (a < b)%nat.
Proof.
  intros Ha Hb B. destruct (get_some ri (a - np)) as [x Gx]; [unfold num_pos in *; lia|]. destruct (get_some ri (b - np)) as [y Gy]; [unfold num_pos in *; lia|].
  assert (Ea : ord a = order (s_prefer s) x). { unfold ord. rewrite <- (nv_pos ri (order (s_prefer s)) _ x Gx). f_equal. unfold pos_nr, num_pos in *. lia. }
  assert (Eb : ord b = order (s_prefer s) y). { unfold ord. rewrite <- (nv_pos ri (order (s_prefer s)) _ y Gy). f_equal. unfold pos_nr, num_pos in *. lia. }
  rewrite Ea, Eb in B. pose proof (sorted_lt _ _ _ _ _ So (get_map_some (order (s_prefer s)) ri _ _ Gx) (get_map_some (order (s_prefer s)) ri _ _ Gy) B). lia.
Qed.
Lemma rt_height a : (np <= a < 2 * np)%nat -> 0 < height (rt a) /\ 0 < height (crt a).
Proof.
  intros Ha. destruct (pos_info n C s n1 Y a Ha) as (_ & _ & _ & _ & U). pose proof (up_height n C _ U).
  pose proof (up_height n (flip C) _ (rc_up_co n C gd _ _ (rt_rc n C s gd Y a ltac:(lia)) U)). lia.
Qed.
(** the sign of a root *)
Lemma sign_height a : (a < 2 * np)%nat -> ((np <= a)%nat <-> 0 < height (rt a)).
Proof.
  intros Ha. split; [intros L; apply (rt_height a); lia|]. intros H. destruct (le_lt_dec np a) as [L|L]; [exact L|]. exfalso. destruct (rt_minus n s n1 a Ha) as (Hm & Em & _).
  destruct (rt_height (minus_nr np a)) as [Q _]; [unfold minus_nr in *; lia|]. rewrite Em, height_opp in Q. lia.
Qed.
Lemma reflected_height a b c : (a < 2 * np)%nat -> (b < 2 * np)%nat -> (c < 2 * np)%nat -> rt c = reflect n C (rt a) (crt a) (rt b) ->
  height (rt c) = height (rt b) - value n C (rt b) (crt a) * height (rt a) /\ height (crt c) = height (crt b) - value n C (rt a) (crt b) * height (crt a).
Proof.
  intros Ha Hb Hc E. pose proof (rt_length n C s gd Y) as L. pose proof (crt_length n C s gd Y) as L'. split.
  - rewrite E. apply height_away; apply L; assumption.
  - assert (Ec : crt c = reflect n (flip C) (crt a) (rt a) (crt b)). { apply (rc_unique n C gd (rt c)); [apply (rt_rc n C s gd Y c Hc)|]. rewrite E. apply (reflect_root n C (proj1 gd)); apply (rt_rc n C s gd Y); assumption. }
    rewrite Ec. unfold reflect. rewrite value_flip. apply height_away; apply L'; assumption.
Qed.
Lemma reflected_lt a b c : (np <= a < 2 * np)%nat -> (np <= b < 2 * np)%nat -> (np <= c < 2 * np)%nat -> rt c = reflect n C (rt a) (crt a) (rt b) ->
  ((c < b)%nat <-> 0 < value n C (rt b) (crt a)) /\ ((b < c)%nat <-> value n C (rt b) (crt a) < 0).
Proof.
  intros Ha Hb Hc E. destruct (reflected_height a b c ltac:(lia) ltac:(lia) ltac:(lia) E) as [H1 H2]. destruct (rt_height a Ha) as [P1 P2].
  destruct (value_sym0 n C s gd Y a b ltac:(lia) ltac:(lia)) as [Z S]. set (k := value n C (rt b) (crt a)) in *. set (k' := value n C (rt a) (crt b)) in *.
  assert (K : (0 < k -> (c < b)%nat) /\ (k < 0 -> (b < c)%nat) /\ (k = 0 -> b = c)).
  { split; [|split].
    - intros Q. apply ord_lt; try assumption. left. rewrite !ord_cases. destruct (s_prefer s); nia.
    - intros Q. apply ord_lt; try assumption. left. rewrite !ord_cases. destruct (s_prefer s); nia.
    - intros Q. apply (rt_inj n C s n1 Y); [lia|lia|]. rewrite E. unfold reflect. fold k. rewrite Q. apply vec_ext; [rewrite away_length; apply (rt_length n C s gd Y); lia|].
      intros j _. rewrite co_away by (apply (rt_length n C s gd Y); lia). lia. }
  destruct K as (K1 & K2 & K3). lia.
Qed.
(** descents by number *)
Lemma is_descent_ok i a : (i < n)%nat -> (a < 2 * np)%nat -> exists t u, is_descent s i a = Ok t /\ is_ascent s i a = Ok u /\ (t = true <-> 0 < pair (rt a) i) /\ (u = true <-> pair (rt a) i < 0).
Proof.
  intros Hi Ha. unfold is_descent, is_ascent. destruct (simple_reflected_ok n C s n1 gd Y i a Hi Ha) as (b & -> & Hb & E & _). cbn [bind]. eexists. eexists. split; [reflexivity|]. split; [reflexivity|]. rewrite !Nat.ltb_lt.
  destruct (rt_simple n C s n1 gd Y i Hi) as (Hp & Es & Es'). pose proof (np_n n C s n1 Y) as Np.
  assert (V : forall a, (a < 2 * np)%nat -> pair (rt a) i = value n C (rt a) (crt (pos_nr np i))) by (intros c Hc; rewrite Es'; symmetry; apply value_basis_r; exact Hi).
  assert (R : forall a b, (a < 2 * np)%nat -> rt b = sreflect n C i (rt a) -> rt b = reflect n C (rt (pos_nr np i)) (crt (pos_nr np i)) (rt a)).
  { intros c d Hc ->. rewrite Es, Es'. symmetry. apply reflect_simple; [exact Hi|apply (rt_length n C s gd Y); exact Hc]. }
  assert (Pi : (np <= pos_nr np i < 2 * np)%nat) by (unfold pos_nr in *; lia).
  destruct (Nat.eq_dec a (pos_nr np i)) as [->|N1].
  { assert (b = neg_nr np i). { apply (rt_inj n C s n1 Y); [exact Hb|unfold neg_nr; lia|]. rewrite E, Es, sr_basis by (try exact (proj1 gd); exact Hi). destruct (rt_minus n s n1 _ Hp) as (_ & Em & _). rewrite Es in Em. rewrite <- Em. f_equal. unfold minus_nr, pos_nr, neg_nr. lia. }
    subst b. rewrite (V _ Hp). rewrite (rc_value n C (proj1 gd) _ _ (rt_rc n C s gd Y _ Hp)). unfold neg_nr, pos_nr. lia. }
  destruct (Nat.eq_dec a (neg_nr np i)) as [->|N2].
  { destruct (rt_minus n s n1 _ Hp) as (_ & Em & _). assert (En : neg_nr np i = minus_nr np (pos_nr np i)) by (unfold minus_nr, pos_nr, neg_nr; lia). rewrite <- En in Em.
    assert (b = pos_nr np i). { apply (rt_inj n C s n1 Y); [exact Hb|exact Hp|]. rewrite E, Em, Es, sr_opp, sr_basis, opp_opp by (try exact (proj1 gd); rewrite ?basis_length; exact Hi). reflexivity. }
    subst b. rewrite Em, pair_opp, (V _ Hp). rewrite (rc_value n C (proj1 gd) _ _ (rt_rc n C s gd Y _ Hp)). unfold neg_nr, pos_nr. lia. }
  pose proof (simple_sign n C s n1 gd Y i a b Hi Ha Hb E N1 N2) as Sg. destruct (le_lt_dec np a) as [L|L].
  - rewrite (V a Ha). apply reflected_lt; [exact Pi|lia|split; [apply Sg; lia|exact Hb]|apply R; assumption].
  - destruct (rt_minus n s n1 a Ha) as (Ha' & Ea & _). destruct (rt_minus n s n1 b Hb) as (Hb' & Eb & _).
    assert (E' : rt (minus_nr np b) = sreflect n C i (rt (minus_nr np a))). { rewrite Ea, Eb, E. symmetry. apply sr_opp. rewrite (rt_length n C s gd Y) by exact Ha. exact Hi. }
    assert (Lb : ~ (np <= b)%nat) by (rewrite Sg; lia).
    destruct (reflected_lt (pos_nr np i) (minus_nr np a) (minus_nr np b) Pi) as [Q1 Q2]; [unfold minus_nr in *; lia|unfold minus_nr in *; lia|apply R; assumption|].
    rewrite <- (V _ Ha'), Ea, pair_opp in Q1, Q2. unfold minus_nr in *. lia.
Qed.

(** ** Bases of subsystems *)
Section Basis.
(** a set of roots closed under its own reflections *)
Variable In_B : nat -> Prop.
Hypothesis B_lt : forall a, In_B a -> (a < 2 * np)%nat.
Hypothesis B_refl : forall a b c, In_B a -> In_B b -> (c < 2 * np)%nat -> rt c = reflect n C (rt a) (crt a) (rt b) -> In_B c.
Definition posB (a : nat) : Prop := In_B a /\ (np <= a)%nat.
Definition decomp (a : nat) : Prop := exists b c, posB b /\ posB c /\ rt a = plus n (rt b) (rt c).
(** no other positive root is made negative *)
Definition smp (a : nat) : Prop := posB a /\ forall b c, posB b -> b <> a -> (c < 2 * np)%nat -> rt c = reflect n C (rt a) (crt a) (rt b) -> (np <= c)%nat.
Lemma pos_range a : posB a -> (np <= a < 2 * np)%nat. Proof. intros [I L]. pose proof (B_lt a I). lia. Qed.
Lemma refl_nr a b : (a < 2 * np)%nat -> (b < 2 * np)%nat -> exists c, (c < 2 * np)%nat /\ rt c = reflect n C (rt a) (crt a) (rt b).
Proof. intros Ha Hb. destruct (reflected_ok n C s n1 gd Y a b Ha Hb) as (c & _ & Hc & E & _). exists c. split; assumption. Qed.
Lemma refl_B a b c : In_B a -> In_B b -> (c < 2 * np)%nat -> rt c = away n (rt b) (value n C (rt b) (crt a)) (rt a) -> In_B c. Proof. apply B_refl. Qed.
Lemma minus_B a : In_B a -> In_B (minus_nr np a).
Proof.
  intros I. pose proof (B_lt a I) as H. destruct (rt_minus n s n1 a H) as (Hm & Em & _). apply (B_refl a a _ I I Hm). rewrite Em. symmetry. apply (reflect_self n C (proj1 gd)). apply (rt_rc n C s gd Y a H).
Qed.
(** a member of the set with given vector, positive or negative *)
Lemma pick a b : In_B a -> In_B b -> exists c, In_B c /\ rt c = reflect n C (rt a) (crt a) (rt b) /\ (posB c \/ posB (minus_nr np c) /\ rt (minus_nr np c) = opp (rt c)).
Proof.
  intros Ia Ib. destruct (refl_nr a b (B_lt a Ia) (B_lt b Ib)) as (c & Hc & E). pose proof (B_refl a b c Ia Ib Hc E) as Ic. exists c. split; [exact Ic|]. split; [exact E|].
  destruct (le_lt_dec np c) as [L|L]; [left; split; assumption|]. right. destruct (rt_minus n s n1 c Hc) as (Hm & Em & _). split; [split; [apply minus_B; exact Ic|unfold minus_nr; lia]|exact Em].
Qed.
Lemma no_double v w u : root_coroot n C v w -> is_root n C u -> (forall k, co u k = 2 * co v k) -> False.
Proof.
  intros R. revert u. induction R as [i Hi|i v w Hi R IH]; intros u Ru E.
  - apply (double_not_root n C n1 gd i Hi). replace (away n (opp (basis n i)) 1 (basis n i)) with (opp u); [apply (root_opp n C gd); exact Ru|].
    apply vec_ext; [rewrite opp_length, away_length; apply (root_length n C); exact Ru|]. intros k _. rewrite co_away by (rewrite ?opp_length; apply basis_length). rewrite !co_opp, E. lia.
  - apply (IH (sreflect n C i u)); [apply is_root_sr; assumption|]. pose proof (root_length n C u Ru) as Lu. destruct (root_coroot_length n C _ _ R) as [Lv _].
    assert (P : pair u i = 2 * pair (sreflect n C i v) i). { unfold pairing. rewrite <- zsum_mul_l. apply zsum_ext. intros j Hj. rewrite E. lia. }
    rewrite pair_sr_self in P by (try exact (proj1 gd); assumption). intros k. rewrite co_sr by lia. rewrite E, co_sr by lia. destruct (Nat.eqb k i); lia.
Qed.
Lemma prod_small a b : (np <= a < 2 * np)%nat -> (np <= b < 2 * np)%nat -> a <> b -> value n C (rt a) (crt b) * value n C (rt b) (crt a) <= 3.
Proof.
  intros Ha Hb N. destruct (Z_le_gt_dec (value n C (rt a) (crt b) * value n C (rt b) (crt a)) 3) as [Q|Q]; [exact Q|]. exfalso.
  destruct (proj1 (proj2 gd)) as (d & D1 & D2 & D3). pose proof (rt_rc n C s gd Y a ltac:(lia)) as Ra. pose proof (rt_rc n C s gd Y b ltac:(lia)) as Rb.
  assert (Par : forall i k, (k < n)%nat -> co (rt a) i * co (rt b) k = co (rt a) k * co (rt b) i).
  { intros i k Hk. destruct (Z.eq_dec (co (rt a) i * co (rt b) k) (co (rt a) k * co (rt b) i)) as [E|E]; [exact E|].
    pose proof (values_product n C d (proj1 gd) D1 D2 D3 _ _ _ _ Ra Rb (ex_intro _ i (ex_intro _ k (conj Hk E)))). lia. }
  destruct (root_nonzero n C d (proj1 gd) D1 D2 _ _ Rb) as (j & Hj & Nj). destruct (root_nonzero n C d (proj1 gd) D1 D2 _ _ Ra) as (j' & Hj' & Nj').
  pose proof (Par j' j Hj) as Pj. pose proof (rt_length n C s gd Y a ltac:(lia)) as La. pose proof (rt_length n C s gd Y b ltac:(lia)) as Lb.
  set (p := co (rt a) j) in *. set (q := co (rt b) j) in *.
  assert (Vec : forall k, q * co (rt a) k = p * co (rt b) k).
  { intros k. destruct (le_lt_dec n k) as [L|L]; [rewrite !co_over by lia; lia|]. pose proof (Par j k L). unfold p, q in *. lia. }
  assert (Pp : p <> 0). { intros E. specialize (Vec j'). rewrite E in Vec. nia. }
  assert (Val : forall w, q * value n C (rt a) w = p * value n C (rt b) w).
  { intros w. unfold value. rewrite <- !zsum_mul_l. apply zsum_ext. intros i _. rewrite <- !zsum_mul_l. apply zsum_ext. intros k _. rewrite !Z.mul_assoc, (Vec i). reflexivity. }
  pose proof (Val (crt a)) as V1. pose proof (Val (crt b)) as V2. rewrite (rc_value n C (proj1 gd) _ _ Ra) in V1. rewrite (rc_value n C (proj1 gd) _ _ Rb) in V2.
  set (x := value n C (rt a) (crt b)) in *. set (y := value n C (rt b) (crt a)) in *.
  assert (XY : x * y = 4) by nia.
  pose proof (rt_sign n C s n1 Y a ltac:(lia)) as Sa. pose proof (rt_sign n C s n1 Y b ltac:(lia)) as Sb. pose proof (proj2 Sa ltac:(lia) j) as Pa. pose proof (proj2 Sb ltac:(lia) j) as Pb. fold p in Pa. fold q in Pb.
  assert (C3 : (x = 1 /\ y = 4) \/ (x = 2 /\ y = 2) \/ (x = 4 /\ y = 1)).
  { assert (X1 : 0 < x) by nia. assert (Y1 : 0 < y) by (clear - X1 XY; nia). assert (X4 : x <= 4) by (clear - X1 Y1 XY; nia). assert (Cx : x = 1 \/ x = 2 \/ x = 3 \/ x = 4) by lia. clear - Cx XY. destruct Cx as [E|[E|[E|E]]]; rewrite E in *; lia. }
  destruct C3 as [[Ex Ey]|[[Ex Ey]|[Ex Ey]]].
  - apply (no_double _ _ (rt b) Ra (ex_intro _ _ Rb)). intros k. specialize (Vec k). nia.
  - apply N. apply (rt_inj n C s n1 Y); [lia|lia|]. apply vec_ext; [lia|]. intros k _. specialize (Vec k). nia.
  - apply (no_double _ _ (rt a) Rb (ex_intro _ _ Ra)). intros k. specialize (Vec k). nia.
Qed.
(** the difference of two roots with positive product *)
Lemma diff_B a b : posB a -> posB b -> a <> b -> 0 < value n C (rt a) (crt b) -> exists c, In_B c /\ rt c = away n (rt a) 1 (rt b) /\ (posB c \/ posB (minus_nr np c) /\ rt (minus_nr np c) = opp (rt c)).
Proof.
  intros Pa Pb N V. pose proof (pos_range a Pa) as Ha. pose proof (pos_range b Pb) as Hb. pose proof (prod_small a b Ha Hb N) as S. pose proof (proj1 (proj2 (value_sym0 n C s gd Y a b ltac:(lia) ltac:(lia))) V) as V'.
  pose proof (rt_length n C s gd Y a ltac:(lia)) as La. pose proof (rt_length n C s gd Y b ltac:(lia)) as Lb.
  assert (C2 : value n C (rt a) (crt b) = 1 \/ value n C (rt b) (crt a) = 1) by nia. destruct C2 as [E|E].
  - destruct (pick b a (proj1 Pb) (proj1 Pa)) as (c & Ic & Ec & Q). exists c. split; [exact Ic|]. split; [rewrite Ec; unfold reflect; rewrite E; reflexivity|exact Q].
  - destruct (pick a b (proj1 Pa) (proj1 Pb)) as (c & Ic & Ec & Q). unfold reflect in Ec. rewrite E in Ec. pose proof (B_lt c Ic) as Hc. destruct (rt_minus n s n1 c Hc) as (Hm & Em & _).
    exists (minus_nr np c). split; [apply minus_B; exact Ic|]. split.
    + rewrite Em, Ec. apply vec_ext; [rewrite opp_length, !away_length; reflexivity|]. intros k _. rewrite co_opp, !co_away by assumption. lia.
    + destruct (rt_minus n s n1 _ Hm) as (_ & Em' & _). destruct Q as [Q|[Q _]]; [right|left; exact Q]. assert (Eq : minus_nr np (minus_nr np c) = c) by (unfold minus_nr in *; lia). rewrite Eq in *. split; [exact Q|exact Em'].
Qed.
Lemma not_simple_decomp b g c : posB b -> posB g -> g <> b -> (c < 2 * np)%nat -> rt c = reflect n C (rt b) (crt b) (rt g) -> (c < np)%nat -> decomp b.
Proof.
  intros Pb Pg N Hc Ec Lc. pose proof (pos_range b Pb) as Hb. pose proof (pos_range g Pg) as Hg. pose proof (rt_length n C s gd Y b ltac:(lia)) as Lb. pose proof (rt_length n C s gd Y g ltac:(lia)) as Lg.
  set (k := value n C (rt g) (crt b)) in *. assert (Hgt := proj1 (reflected_height b g c ltac:(lia) ltac:(lia) Hc Ec)). fold k in Hgt.
  destruct (rt_height b Hb) as [Pbh _]. destruct (rt_height g Hg) as [Pgh _].
  assert (Pc : posB (minus_nr np c) /\ rt (minus_nr np c) = opp (rt c)). { destruct (rt_minus n s n1 c Hc) as (_ & Em & _). split; [|exact Em]. split; [apply minus_B; apply (B_refl b g); try assumption; [apply Pb|apply Pg]|unfold minus_nr; lia]. }
  destruct Pc as [Pm Em]. set (m := minus_nr np c) in *. pose proof (pos_range m Pm) as Hm. destruct (rt_height m Hm) as [Pmh _]. rewrite Em, height_opp in Pmh.
  assert (Kp : 0 < k) by nia. pose proof (prod_small g b Hg Hb N) as Sm. fold k in Sm. pose proof (proj1 (proj2 (value_sym0 n C s gd Y g b ltac:(lia) ltac:(lia))) Kp) as Kp'. 
  assert (Lm : forall j, co (rt m) j = k * co (rt b) j - co (rt g) j). { intros j. rewrite Em, co_opp, Ec. unfold reflect. fold k. rewrite co_away by assumption. lia. }
  assert (Lmn : length (rt m) = n) by (apply (rt_length n C s gd Y); lia).
  destruct (diff_B g b Pg Pb N Kp) as (e & Ie & Ee & Q). pose proof (B_lt e Ie) as He. pose proof (rt_length n C s gd Y e He) as Le.
  assert (Le' : forall j, co (rt e) j = co (rt g) j - co (rt b) j) by (intros j; rewrite Ee, co_away by assumption; lia).
  destruct Q as [Q|[Q Eq]].
  - (* g = b + e *)
    destruct (rt_height e (pos_range e Q)) as [Peh _]. rewrite Ee, height_away in Peh by assumption.
    assert (K23 : k = 2 \/ k = 3) by nia. destruct K23 as [K2|K3].
    + exists e, m. split; [exact Q|]. split; [exact Pm|]. apply vec_ext; [rewrite plus_length; exact Lb|]. intros j _. rewrite co_plus by assumption. rewrite Lm, Le'. lia.
    + assert (Ve : value n C (rt e) (crt b) = 1). { rewrite Ee, value_away_l by assumption. fold k. rewrite (rc_value n C (proj1 gd) _ _ (rt_rc n C s gd Y b ltac:(lia))). lia. }
      destruct (pick b e (proj1 Pb) Ie) as (h & Ih & Eh & Qh). unfold reflect in Eh. rewrite Ve in Eh. pose proof (B_lt h Ih) as Hh. pose proof (rt_length n C s gd Y h Hh) as Lh.
      assert (Lh' : forall j, co (rt h) j = co (rt e) j - co (rt b) j) by (intros j; rewrite Eh, co_away by assumption; lia).
      destruct Qh as [Qh|[Qh Eqh]].
      * exists m, h. split; [exact Pm|]. split; [exact Qh|]. apply vec_ext; [rewrite plus_length; exact Lb|]. intros j _. rewrite co_plus by assumption. rewrite Lm, Lh', Le'. lia.
      * exists e, (minus_nr np h). split; [exact Q|]. split; [exact Qh|]. apply vec_ext; [rewrite plus_length; exact Lb|]. intros j _. rewrite co_plus by (rewrite ?Eqh, ?opp_length; assumption). rewrite Eqh, co_opp, Lh'. lia.
  - exists g, (minus_nr np e). split; [exact Pg|]. split; [exact Q|]. apply vec_ext; [rewrite plus_length; exact Lb|]. intros j _. rewrite co_plus by (rewrite ?Eq, ?opp_length; assumption). rewrite Eq, co_opp, Le'. lia.
Qed.
Lemma decomp_height a b c : posB b -> posB c -> rt a = plus n (rt b) (rt c) -> height (rt a) = height (rt b) + height (rt c) /\ 0 < height (rt b) /\ 0 < height (rt c).
Proof.
  intros Pb Pc E. pose proof (pos_range b Pb) as Hb. pose proof (pos_range c Pc) as Hc. rewrite E, height_plus by (apply (rt_length n C s gd Y); lia).
  destruct (rt_height b Hb). destruct (rt_height c Hc). lia.
Qed.
Lemma smp_indecomp a : posB a -> (smp a <-> ~ decomp a).
Proof.
  intros Pa. pose proof (pos_range a Pa) as Ha. split.
  - intros [_ S] (b & c & Pb & Pc & E). pose proof (pos_range b Pb) as Hb. pose proof (pos_range c Pc) as Hc. destruct (decomp_height a b c Pb Pc E) as (H & P1 & P2).
    pose proof (rc_value n C (proj1 gd) _ _ (rt_rc n C s gd Y a ltac:(lia))) as V. rewrite E in V at 1. rewrite value_plus_l in V by (apply (rt_length n C s gd Y); lia).
    assert (K : forall d, posB d -> height (rt d) < height (rt a) -> value n C (rt d) (crt a) <= 0).
    { intros d Pd Hd. pose proof (pos_range d Pd) as Rd. destruct (Z_lt_le_dec 0 (value n C (rt d) (crt a))) as [Q|Q]; [|exact Q]. exfalso.
      destruct (refl_nr a d ltac:(lia) ltac:(lia)) as (e & He & Ee). assert (Nd : d <> a) by (intros ->; lia). pose proof (S d e Pd Nd He Ee) as L. apply (sign_height e He) in L.
      pose proof (proj1 (reflected_height a d e ltac:(lia) ltac:(lia) He Ee)) as Eh. destruct (rt_height a Ha). nia. }
    pose proof (K b Pb ltac:(lia)). pose proof (K c Pc ltac:(lia)). lia.
  - intros N. split; [exact Pa|]. intros b c Pb Nb Hc Ec. destruct (le_lt_dec np c) as [L|L]; [exact L|]. destruct N. apply (not_simple_decomp a b c); assumption.
Qed.
End Basis.
End Order.
