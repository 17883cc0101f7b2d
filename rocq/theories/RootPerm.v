(** The permutations of the roots by reflections, and the bottoms of ladders. *)

From Coq Require Import List Arith ZArith Bool Lia Sorted.
From Verif Require Import VecModel VecProofs RunModel RunProofs MatModel MatSpec MatRing MatLin SizeModel BitsetSpec DynBits DynkinModel LieTypeSpec RootModel RootSpec RootMath RootForm RootFin RootBase RootGen RootCo.
Import ListNotations.
Local Open Scope Z_scope.

(** ** The vector with a given number *)
Definition nv (proj : root_info -> list Z) (ri : list root_info) (a : nat) : list Z :=
  match get ri (abs_nr (length ri) a) with
  | Some x => if is_pos (length ri) a then proj x else opp (proj x)
  | None => []
  end.
Definition acts (n : nat) (C : nat -> nat -> Z) (ri : list root_info) (p : list nat) (r c : list Z) : Prop :=
  length p = (2 * length ri)%nat /\ forall b, (b < 2 * length ri)%nat ->
    exists b', get p b = Some b' /\ (b' < 2 * length ri)%nat /\ nv r_root ri b' = reflect n C r c (nv r_root ri b).
Definition bot_ok (n : nat) (C : nat -> nat -> Z) (ri : list root_info) (a : nat) (B : bset) : Prop :=
  length B = (2 * length ri)%nat /\ forall b, (b < 2 * length ri)%nat ->
    (bmem B b = true <-> ~ is_root n C (away n (nv r_root ri b) 1 (nv r_root ri a))).
Lemma nv_swap ri a : nv r_root (map swap_info ri) a = nv r_coroot ri a.
Proof. unfold nv. rewrite map_length, get_map. destruct (get ri (abs_nr (length ri) a)) as [x|]; reflexivity. Qed.
Lemma nv_swap' ri a : nv r_coroot (map swap_info ri) a = nv r_root ri a.
Proof. unfold nv. rewrite map_length, get_map. destruct (get ri (abs_nr (length ri) a)) as [x|]; reflexivity. Qed.
Lemma look_swap k : forall from ri v, look r_coroot k from ri v = look r_root k from (map swap_info ri) v.
Proof.
  induction k as [|k IH]; intros from ri v; cbn [look]; [reflexivity|]. unfold vget. rewrite get_map. destruct (get ri from) as [x|]; [|reflexivity].
  cbn [bind swap_info r_root]. destruct (veqb (r_coroot x) v); [reflexivity|]. apply IH.
Qed.
Lemma is_bottom_swap ri v i : is_bottom r_coroot ri v i = is_bottom r_root (map swap_info ri) v i.
Proof. unfold is_bottom. rewrite map_length. destruct (vget v i) as [c|e]; [|reflexivity]. cbn [bind]. destruct (c =? 0); [reflexivity|]. destruct (vput v i (s8 (c - 1))) as [w|e]; [|reflexivity].
  cbn [bind]. rewrite look_swap. reflexivity. Qed.

Lemma bmem_get B b : (b < length B)%nat -> get B b = Some (bmem B b).
Proof. intros H. unfold bmem. apply get_nth. exact H. Qed.
Lemma bmem_over B b : (length B <= b)%nat -> bmem B b = false.
Proof. intros H. unfold bmem. apply nth_overflow. exact H. Qed.
Lemma bins_ok (B : bset) x : (x < length B)%nat -> exists B', bins B x = Ok B' /\ length B' = length B /\ forall b, bmem B' b = Nat.eqb b x || bmem B b.
Proof.
  intros H. unfold bins. destruct (vput_ok B x true H) as (B' & E & L & G). exists B'. split; [exact E|]. split; [exact L|]. intros b.
  destruct (le_lt_dec (length B) b) as [Hb|Hb].
  - rewrite !bmem_over by lia. destruct (Nat.eqb_spec b x); [lia|reflexivity].
  - specialize (G b). rewrite (bmem_get B' b) in G by lia. rewrite (bmem_get B b Hb) in G. destruct (Nat.eqb b x); cbn; congruence.
Qed.
Lemma bins2_ok (B : bset) x y (t : bool) : (x < length B)%nat -> (y < length B)%nat ->
  exists B' : bset, (if t then run b1 <- bins B x; bins b1 y else Ok B) = Ok B' /\ length B' = length B /\
    forall b, bmem B' b = bmem B b || (t && (Nat.eqb b x || Nat.eqb b y)).
Proof.
  intros Hx Hy. destruct t.
  - destruct (bins_ok B x Hx) as (B1 & -> & L1 & G1). cbn [bind]. destruct (bins_ok B1 y ltac:(lia)) as (B2 & -> & L2 & G2).
    exists B2. split; [reflexivity|]. split; [lia|]. intros b. rewrite G2, G1. cbn. destruct (Nat.eqb b x), (Nat.eqb b y), (bmem B b); reflexivity.
  - exists B. split; [reflexivity|]. split; [reflexivity|]. intros b. cbn. rewrite orb_false_r. reflexivity.
Qed.
Lemma reflect_away n C r c v u : length r = n -> length v = n -> length u = n ->
  reflect n C r c (away n v 1 u) = away n (reflect n C r c v) 1 (reflect n C r c u).
Proof.
  intros Lr Lv Lu. apply RootMath.vec_ext; [rewrite reflect_length, away_length; reflexivity|]. intros k _. unfold reflect.
  rewrite !co_away, value_away_l by (rewrite ?away_length; assumption || reflexivity). ring.
Qed.

Lemma nv_pos (ri : list root_info) proj a x : get ri a = Some x -> nv proj ri (pos_nr (length ri) a) = proj x.
Proof.
  intros G. pose proof (get_lt _ _ _ G) as L. unfold nv, abs_nr, is_pos, pos_nr. rewrite (proj2 (Nat.leb_le (length ri) ((length ri) + a))) by lia.
  replace ((length ri) + a - (length ri))%nat with a by lia. rewrite G. reflexivity.
Qed.
Lemma nv_neg (ri : list root_info) proj a x : get ri a = Some x -> nv proj ri (neg_nr (length ri) a) = opp (proj x).
Proof.
  intros G. pose proof (get_lt _ _ _ G) as L. unfold nv, abs_nr, is_pos, neg_nr. rewrite (proj2 (Nat.leb_gt (length ri) ((length ri) - 1 - a))) by lia.
  replace ((length ri) - 1 - ((length ri) - 1 - a))%nat with a by lia. rewrite G. reflexivity.
Qed.
Lemma nr_cases (ri : list root_info) b : (b < 2 * (length ri))%nat -> exists a x, get ri a = Some x /\ (a < (length ri))%nat /\ (b = pos_nr (length ri) a \/ b = neg_nr (length ri) a).
Proof.
  intros H. destruct (le_lt_dec (length ri) b) as [Q|Q].
  - destruct (get_some ri (b - (length ri)) ltac:(lia)) as [x G]. exists (b - (length ri))%nat, x. split; [exact G|]. unfold pos_nr. split; [lia|]. left. lia.
  - destruct (get_some ri ((length ri) - 1 - b) ltac:(lia)) as [x G]. exists ((length ri) - 1 - b)%nat, x. split; [exact G|]. unfold neg_nr. split; [lia|]. right. lia.
Qed.
Section Num.
Variables (n : nat) (C : nat -> nat -> Z) (link : list (list (option nat))) (ri : list root_info).
Hypothesis n1 : (1 <= n <= 32)%nat.
Hypothesis gd : good n C.
Hypothesis T : table n C link ri.
Let cart : Cartan_like n C := proj1 gd.
Notation np := (length ri).
Notation nr := (nv r_root ri).
Notation up := (up n C).
Notation rc := (root_coroot n C).
Notation root := (is_root n C).
Notation sr := (sreflect n C).
Notation e := (basis n).
Lemma smallC : forall i j, (i < n)%nat -> (j < n)%nat -> i <> j -> C i j * C j i <= 3. Proof. exact (small n C gd). Qed.
Lemma nr_rc b : (b < 2 * np)%nat -> rc (nr b) (nv r_coroot ri b).
Proof.
  intros H. destruct (nr_cases ri b H) as (a & x & G & _ & [->| ->]); rewrite ?(nv_pos ri _ a x G), ?(nv_neg ri _ a x G); [|apply (rc_opp n C cart)]; apply (t_rc _ _ _ _ T a x G).
Qed.
Lemma nr_root b : (b < 2 * np)%nat -> root (nr b). Proof. intros H. eexists. apply (nr_rc b H). Qed.
Lemma nr_length b : (b < 2 * np)%nat -> length (nr b) = n. Proof. intros H. apply (root_length n C). apply nr_root. exact H. Qed.
Lemma up_not_opp v : up v -> ~ up (opp v).
Proof.
  intros U U'. pose proof (up_height n C v U) as H. pose proof (up_height n C _ U') as H'. rewrite height_zsum, opp_length in H'. rewrite height_zsum in H.
  rewrite (zsum_ext _ (co (opp v)) (fun k => -1 * co v k)) in H' by (intros k _; rewrite co_opp; lia). rewrite zsum_mul_l in H'. lia.
Qed.
Lemma nr_inj b b' : (b < 2 * np)%nat -> (b' < 2 * np)%nat -> nr b = nr b' -> b = b'.
Proof.
  intros H H' E. destruct (nr_cases ri b H) as (a & x & G & La & Q). destruct (nr_cases ri b' H') as (a' & x' & G' & La' & Q').
  pose proof (proj2 (t_rc _ _ _ _ T a x G)) as U. pose proof (proj2 (t_rc _ _ _ _ T a' x' G')) as U'.
  destruct Q as [->| ->], Q' as [->| ->]; rewrite ?(nv_pos ri _ a x G), ?(nv_neg ri _ a x G), ?(nv_pos ri _ a' x' G'), ?(nv_neg ri _ a' x' G') in E.
  - rewrite (t_inj _ _ _ _ T a a' x x' G G' E). reflexivity.
  - exfalso. rewrite E in U. exact (up_not_opp _ U' U).
  - exfalso. rewrite <- E in U'. exact (up_not_opp _ U U').
  - assert (E' : r_root x = r_root x') by (rewrite <- (opp_opp (r_root x)), E; apply opp_opp). rewrite (t_inj _ _ _ _ T a a' x x' G G' E'). reflexivity.
Qed.
Lemma nr_all v : root v -> exists b, (b < 2 * np)%nat /\ nr b = v.
Proof.
  intros R. destruct (root_up n C cart smallC v R) as [U|U]; destruct (t_all _ _ _ _ T _ U) as (a & x & G & E); pose proof (get_lt _ _ _ G) as L.
  - exists (pos_nr np a). unfold pos_nr at 1. split; [lia|]. rewrite (nv_pos ri _ a x G). exact E.
  - exists (neg_nr np a). unfold neg_nr at 1. split; [lia|]. rewrite (nv_neg ri _ a x G), E. apply opp_opp.
Qed.
Lemma nr_minus proj b : (b < 2 * np)%nat -> (minus_nr np b < 2 * np)%nat /\ nv proj ri (minus_nr np b) = opp (nv proj ri b).
Proof.
  intros H. unfold minus_nr at 1. split; [lia|]. destruct (nr_cases ri b H) as (a & x & G & La & [->| ->]).
  - replace (minus_nr np (pos_nr np a)) with (neg_nr np a) by (unfold minus_nr, pos_nr, neg_nr; lia). rewrite (nv_pos ri _ a x G), (nv_neg ri _ a x G). reflexivity.
  - replace (minus_nr np (neg_nr np a)) with (pos_nr np a) by (unfold minus_nr, pos_nr, neg_nr; lia). rewrite (nv_pos ri _ a x G), (nv_neg ri _ a x G), opp_opp. reflexivity.
Qed.
Lemma root_opp v : root v -> root (opp v). Proof. intros [w R]. exists (opp w). apply (rc_opp n C cart). exact R. Qed.
Lemma root_reflect r c v : rc r c -> root v -> root (reflect n C r c v). Proof. intros R [w V]. eexists. apply (reflect_root n C cart r c v w R V). Qed.

(** ** Permutations *)
Lemma acts_involution p r c b b' : rc r c -> acts n C ri p r c -> get p b = Some b' -> get p b' = Some b.
Proof.
  intros R [L A] G. assert (Hb : (b < 2 * np)%nat) by (rewrite <- L; apply (get_lt _ _ _ G)).
  destruct (A b Hb) as (b1 & G1 & Hb1 & E1). rewrite G in G1. injection G1 as <-. destruct (A b' Hb1) as (b2 & G2 & Hb2 & E2).
  rewrite G2. f_equal. apply nr_inj; [exact Hb2|exact Hb|]. rewrite E2, E1. apply (reflect_reflect n C cart r c); [exact R|apply nr_length; exact Hb].
Qed.
Lemma image_bot p r c a a' B : rc r c -> acts n C ri p r c -> (a < 2 * np)%nat -> (a' < 2 * np)%nat -> nr a' = reflect n C r c (nr a) ->
  bot_ok n C ri a B -> exists B', image_set np p B = Ok B' /\ bot_ok n C ri a' B'.
Proof.
  intros R A Ha Ha' E [LB HB]. destruct (root_coroot_length n C _ _ R) as [Lr Lc]. unfold image_set, each. pose proof A as [Lp Ap].
  destruct (gives_none (upto (length B) 0 (fun x s1 => if bmem B x then run y <- vget p x; bins s1 y else Ok s1) (repeat false (2 * np)))
    (fun s => length s = (2 * np)%nat /\ forall y, (y < 2 * np)%nat -> (bmem s y = true <-> exists x, (x < length B)%nat /\ bmem B x = true /\ get p x = Some y))) as (B' & EB & LB' & HB').
  { apply (gives_upto0 (fun k s => length s = (2 * np)%nat /\ forall y, (y < 2 * np)%nat -> (bmem s y = true <-> exists x, (x < k)%nat /\ bmem B x = true /\ get p x = Some y))).
    - split; [apply repeat_length|]. intros y Hy. split; [|intros (x & Hx & _); lia].
      intros Q. pose proof (bmem_get (repeat false (2 * np)) y ltac:(rewrite repeat_length; exact Hy)) as Q'. rewrite get_repeat in Q' by exact Hy. congruence.
    - intros k s Hk (Ls & Hs). destruct (bmem B k) eqn:Bk.
      + destruct (Ap k ltac:(lia)) as (y0 & G0 & Hy0 & _). rewrite (vget_ok _ _ _ G0). cbn [bind]. destruct (bins_ok s y0 ltac:(lia)) as (s' & -> & L' & G').
        cbn [gives]. split; [lia|]. intros y Hy. rewrite G', orb_true_iff, Nat.eqb_eq, (Hs y Hy). split.
        * intros [->|(x & Hx & Q)]; [exists k; split; [lia|split; assumption]|exists x; split; [lia|exact Q]].
        * intros (x & Hx & Q1 & Q2). destruct (Nat.eq_dec x k) as [->|N]; [left; congruence|right; exists x; split; [lia|split; assumption]].
      + cbn [gives]. split; [exact Ls|]. intros y Hy. rewrite (Hs y Hy). split; intros (x & Hx & Q1 & Q2); exists x; (split; [|split; assumption]); [lia|].
        destruct (Nat.eq_dec x k) as [->|N]; [congruence|lia].
    - intros s Q. exact Q. }
  exists B'. split; [exact EB|]. split; [exact LB'|]. intros y Hy. rewrite (HB' y Hy). destruct (Ap y Hy) as (x & Gx & Hx & Ex).
  assert (Q : (exists x0, (x0 < length B)%nat /\ bmem B x0 = true /\ get p x0 = Some y) <-> bmem B x = true).
  { split.
    - intros (x0 & _ & Q1 & Q2). apply (acts_involution p r c x0 y R A) in Q2. rewrite Gx in Q2. injection Q2 as <-. exact Q1.
    - intros Q1. exists x. split; [lia|]. split; [exact Q1|]. apply (acts_involution p r c y x R A Gx). }
  rewrite Q, (HB x Hx), Ex, E. pose proof (nr_length a Ha) as La. pose proof (nr_length y Hy) as Ly.
  rewrite <- (reflect_reflect n C cart r c (nr a) R La) at 1. rewrite <- reflect_away by (rewrite ?reflect_length; assumption || reflexivity).
  split; intros Z0 Z1; apply Z0.
  - apply root_reflect; [exact R|exact Z1].
  - apply (root_reflect r c) in Z1; [|exact R]. rewrite (reflect_reflect n C cart) in Z1 by (try exact R; apply away_length). exact Z1.
Qed.

(** ** Ladders for a simple root *)
Lemma away_bump v i : (i < n)%nat -> length v = n -> away n v 1 (e i) = bump v i (-1).
Proof.
  intros Hi L. apply RootMath.vec_ext; [rewrite away_length, bump_length; lia|]. intros k _. rewrite co_away, co_bump, co_basis by (rewrite ?basis_length; assumption || lia).
  destruct (Nat.eqb k i); lia.
Qed.
Lemma is_bottom_ok i a x : get ri a = Some x -> (i < n)%nat -> a <> i ->
  exists t, is_bottom r_root ri (r_root x) i = Ok t /\ (t = true <-> ~ root (away n (r_root x) 1 (e i))).
Proof.
  intros G Hi Na. pose proof (proj2 (t_rc _ _ _ _ T a x G)) as U. pose proof (up_length n C _ U) as L. set (v := r_root x) in *.
  assert (Nv : v <> e i). { intros E. apply Na. destruct (t_simple _ _ _ _ T i Hi) as (z & Gz & Ez). apply (t_inj _ _ _ _ T a i x z G Gz). fold v. congruence. }
  unfold is_bottom. rewrite (vget_ok _ _ _ (get_co v i ltac:(lia))). cbn [bind]. rewrite (away_bump v i Hi L).
  pose proof (up_co n C n1 gd v i U) as Bi. pose proof (up_nonneg n C v U) as Nn. destruct (up_other n C cart smallC v i U Hi Nv) as (k & Hk & Nk & Pk).
  destruct (Z.eqb_spec (co v i) 0) as [Z0|Z0].
  - exists true. split; [reflexivity|]. split; [|reflexivity]. intros _ R. destruct (root_up n C cart smallC _ R) as [Q|Q]; apply (up_nonneg n C) in Q.
    + specialize (Q i). rewrite co_bump, Nat.eqb_refl in Q by lia. lia.
    + specialize (Q k). rewrite co_opp, co_bump, (proj2 (Nat.eqb_neq k i)) in Q by (assumption || lia). lia.
  - rewrite s8_id by (unfold byte_range; lia). replace (co v i - 1) with (co v i + -1) by lia. rewrite vput_bump by lia. cbn [bind].
    destruct (look_ok r_root ri (bump v i (-1)) np 0 ltac:(lia)) as (o & -> & Ho). cbn [bind]. eexists. split; [reflexivity|]. destruct o as [j|].
    + split; [discriminate|]. intros Q. exfalso. apply Q. destruct Ho as (_ & y & Gy & <-). eexists. apply (t_rc _ _ _ _ T j y Gy).
    + split; [|reflexivity]. intros _ R. assert (Un : up (bump v i (-1))).
      { apply (nonneg_up n C cart smallC _ R). intros m. rewrite co_bump by lia. specialize (Nn m). destruct (Nat.eqb_spec m i) as [->|N]; lia. }
      destruct (t_all _ _ _ _ T _ Un) as (j & y & Gy & Ey). apply (Ho j y); [|exact Gy|exact Ey]. pose proof (get_lt _ _ _ Gy). lia.
Qed.
Lemma zero_not_root v : length v = n -> (forall k, co v k = 0) -> ~ root v.
Proof.
  intros L Z R. assert (height v = 0) by (rewrite height_zsum; apply zsum_zero; intros; apply Z).
  assert (opp v = v) by (apply RootMath.vec_ext; [apply opp_length|]; intros k _; rewrite co_opp, Z; reflexivity).
  destruct (root_up n C cart smallC v R) as [Q|Q]; apply (up_height n C) in Q; try rewrite H0 in Q; lia.
Qed.
Lemma double_not_root i : (i < n)%nat -> ~ root (away n (opp (e i)) 1 (e i)).
Proof.
  intros Hi R. assert (CO : forall k, co (away n (opp (e i)) 1 (e i)) k = if Nat.eqb k i then -2 else 0).
  { intros k. rewrite co_away, co_opp, co_basis by (rewrite ?opp_length, ?basis_length; assumption || reflexivity). destruct (Nat.eqb k i); reflexivity. }
  destruct (root_up n C cart smallC _ R) as [U|U].
  - pose proof (up_nonneg n C _ U i) as Q. rewrite CO, Nat.eqb_refl in Q. lia.
  - destruct (list_eq_dec Z.eq_dec (opp (away n (opp (e i)) 1 (e i))) (e i)) as [Q|Q].
    + apply (f_equal (fun v => co v i)) in Q. rewrite co_opp, CO, co_basis, Nat.eqb_refl in Q by exact Hi. lia.
    + destruct (up_other n C cart smallC _ i U Hi Q) as (k & Hk & Nk & P). rewrite co_opp, CO, (proj2 (Nat.eqb_neq k i)) in P by exact Nk. lia.
Qed.
(** the numbers marked for a simple root: [lnk a] is the number linked to [a] *)
Section Simple.
Variable i : nat.
Hypothesis Hi : (i < n)%nat.
Variable lnk : nat -> nat.
Hypothesis lnk_ok : forall a x, get ri a = Some x -> (lnk a < np)%nat /\ (a = i -> lnk a = i) /\ (a <> i -> exists y, get ri (lnk a) = Some y /\ r_root y = sr i (r_root x)).
Definition bt (a : nat) : Prop := ~ root (away n (nr (pos_nr np a)) 1 (e i)).
Lemma simple_ri : exists z, get ri i = Some z /\ r_root z = e i. Proof. apply (t_simple _ _ _ _ T i Hi). Qed.
Lemma lnk_other a x : get ri a = Some x -> a <> i -> lnk a <> i /\ lnk (lnk a) = a.
Proof.
  intros G N. destruct (lnk_ok a x G) as (L & _ & Q). destruct (Q N) as (y & Gy & Ey). destruct simple_ri as (z & Gz & Ez).
  pose proof (proj2 (t_rc _ _ _ _ T a x G)) as U. pose proof (up_length n C _ U) as Lx.
  assert (Nl : lnk a <> i).
  { intros E. rewrite E, Gz in Gy. injection Gy as <-. rewrite Ez in Ey. apply (up_not_opp (r_root x) U).
    assert (E2 : r_root x = opp (e i)). { rewrite <- (sr_basis n C cart i Hi), Ey. symmetry. apply (sr_sr n C cart); assumption. }
    rewrite E2, opp_opp. apply up_simple. exact Hi. }
  split; [exact Nl|]. destruct (lnk_ok (lnk a) y Gy) as (L2 & _ & Q2). destruct (Q2 Nl) as (w & Gw & Ew).
  apply (t_inj _ _ _ _ T _ _ w x Gw G). rewrite Ew, Ey. apply (sr_sr n C cart); assumption.
Qed.
Lemma simple_bots B : length B = (2 * np)%nat ->
  (forall b, (b < 2 * np)%nat -> (bmem B b = true <-> exists a, (a < np)%nat /\ bt a /\ (b = pos_nr np a \/ b = neg_nr np (lnk a)))) ->
  bot_ok n C ri (pos_nr np i) B.
Proof.
  intros LB HB. split; [exact LB|]. intros b Hb. rewrite (HB b Hb). destruct simple_ri as (z & Gz & Ez). rewrite (nv_pos ri _ i z Gz), Ez.
  destruct (nr_cases ri b Hb) as (a & x & G & La & Q). destruct Q as [->| ->].
  - fold (bt a). split; [|intros Q; exists a; split; [exact La|split; [exact Q|left; reflexivity]]].
    intros (a' & La' & Q & [E|E]); [unfold pos_nr in E; assert (a' = a) by lia; subst; exact Q|]. unfold pos_nr, neg_nr in E. lia.
  - rewrite (nv_neg ri _ a x G). destruct (Nat.eq_dec a i) as [->|Na].
    + rewrite Gz in G. injection G as <-. rewrite Ez. split; [intros _; apply double_not_root; exact Hi|]. intros _. exists i. split; [exact La|].
      destruct (lnk_ok i z Gz) as (_ & Q & _). rewrite (Q eq_refl). split; [|right; reflexivity]. unfold bt. rewrite (nv_pos ri _ i z Gz), Ez.
      apply zero_not_root; [apply away_length|]. intros k. rewrite co_away by apply basis_length. lia.
    + destruct (lnk_other a x G Na) as [Nl Ll]. destruct (lnk_ok a x G) as (Lk & _ & Q). destruct (Q Na) as (y & Gy & Ey).
      pose proof (up_length n C _ (proj2 (t_rc _ _ _ _ T a x G))) as Lx.
      assert (K : bt (lnk a) <-> ~ root (away n (opp (r_root x)) 1 (e i))).
      { unfold bt. rewrite (nv_pos ri _ _ y Gy), Ey.
        assert (E1 : away n (opp (r_root x)) 1 (e i) = opp (sr i (away n (sr i (r_root x)) 1 (e i)))).
        { rewrite sr_away by (rewrite ?sr_length, ?basis_length; assumption || reflexivity). rewrite (sr_sr n C cart), (sr_basis n C cart) by assumption.
          apply RootMath.vec_ext; [rewrite away_length, opp_length, away_length; reflexivity|]. intros k _. rewrite co_opp, !co_away, !co_opp by (rewrite ?opp_length, ?basis_length; assumption || reflexivity). ring. }
        rewrite E1. split; intros Z0 Z1; apply Z0.
        - apply root_opp in Z1. rewrite opp_opp in Z1. apply (is_root_sr n C i _ Hi) in Z1. rewrite (sr_sr n C cart) in Z1 by (try exact Hi; apply away_length). exact Z1.
        - apply root_opp. apply (is_root_sr n C i _ Hi). exact Z1. }
      rewrite <- K. split.
      * intros (a' & La' & Q' & [E|E]); [unfold pos_nr, neg_nr in E; lia|]. destruct (get_some ri a' La') as [x' G'].
        destruct (lnk_ok a' x' G') as (Lk' & Q1 & _). assert (E' : lnk a' = a) by (unfold neg_nr in E; lia).
        destruct (Nat.eq_dec a' i) as [->|N']; [rewrite (Q1 eq_refl) in E'; congruence|]. destruct (lnk_other a' x' G' N') as [_ Ll']. rewrite <- E', Ll'. exact Q'.
      * intros Q'. exists (lnk a). split; [exact Lk|]. split; [exact Q'|]. right. rewrite Ll. reflexivity.
Qed.
Lemma simple_acts p : length p = (2 * np)%nat -> (forall a, (a < np)%nat -> a <> i -> get p (pos_nr np a) = Some (pos_nr np (lnk a)) /\ get p (neg_nr np a) = Some (neg_nr np (lnk a))) ->
  get p (pos_nr np i) = Some (neg_nr np i) -> get p (neg_nr np i) = Some (pos_nr np i) -> acts n C ri p (e i) (e i).
Proof.
  intros Lp A A1 A2. split; [exact Lp|]. intros b Hb. rewrite reflect_simple by (try exact Hi; apply nr_length; exact Hb).
  destruct (nr_cases ri b Hb) as (a & x & G & La & Q). destruct simple_ri as (z & Gz & Ez). pose proof (get_lt _ _ _ Gz) as Lz.
  pose proof (up_length n C _ (proj2 (t_rc _ _ _ _ T a x G))) as Lx.
  destruct (Nat.eq_dec a i) as [->|Na].
  - rewrite Gz in G. injection G as <-. destruct Q as [->| ->].
    + exists (neg_nr np i). split; [exact A1|]. split; [unfold neg_nr; lia|]. rewrite (nv_pos ri _ i z Gz), (nv_neg ri _ i z Gz), Ez. symmetry. apply (sr_basis n C cart). exact Hi.
    + exists (pos_nr np i). split; [exact A2|]. split; [unfold pos_nr; lia|]. rewrite (nv_pos ri _ i z Gz), (nv_neg ri _ i z Gz), Ez, sr_opp, (sr_basis n C cart), opp_opp by (rewrite ?basis_length; exact Hi). reflexivity.
  - destruct (A a La Na) as [P1 P2]. destruct (lnk_ok a x G) as (Lk & _ & S). destruct (S Na) as (y & Gy & Ey). destruct Q as [->| ->].
    + exists (pos_nr np (lnk a)). split; [exact P1|]. split; [unfold pos_nr; lia|]. rewrite (nv_pos ri _ _ y Gy), (nv_pos ri _ a x G). exact Ey.
    + exists (neg_nr np (lnk a)). split; [exact P2|]. split; [unfold neg_nr; lia|]. rewrite (nv_neg ri _ _ y Gy), (nv_neg ri _ a x G), Ey, sr_opp by lia. reflexivity.
Qed.
End Simple.

(** composing the permutations *)
Lemma renumber_ok p v : (forall k x, get v k = Some x -> (x < length p)%nat) -> 
  exists w, renumber p v = Ok w /\ length w = length v /\ forall k x, get v k = Some x -> get w k = get p x.
Proof.
  intros H. unfold renumber.
  destruct (gives_none (upto (length v) 0 (fun k v1 => run x <- vget v1 k; run y <- vget p x; vput v1 k y) v)
    (fun w => length w = length v /\ forall k x, get v k = Some x -> get w k = get p x)) as (w & E & Q).
  { eapply (gives_upto0 (fun m w => length w = length v /\ forall k x, get v k = Some x -> get w k = if Nat.ltb k m then get p x else Some x)).
    - split; [reflexivity|]. intros k x G. exact G.
    - intros m w Hm (L & Q). destruct (get_some v m Hm) as [x G]. pose proof (Q m x G) as Gw. rewrite (proj2 (Nat.ltb_ge m m)) in Gw by lia. rewrite (vget_ok _ _ _ Gw). cbn [bind].
      destruct (get_some p x (H m x G)) as [y Gy]. rewrite (vget_ok _ _ _ Gy). cbn [bind]. destruct (vput_ok w m y ltac:(lia)) as (w' & -> & L' & G'). cbn [gives]. split; [lia|].
      intros k x' Gk. rewrite G'. destruct (Nat.eqb k m) eqn:Ek.
      + apply Nat.eqb_eq in Ek. subst k. rewrite (proj2 (Nat.ltb_lt m (S m))) by lia. congruence.
      + apply Nat.eqb_neq in Ek. rewrite (Q k x' Gk). destruct (Nat.ltb_spec k m), (Nat.ltb_spec k (S m)); lia || reflexivity.
    - intros w (L & Q). split; [exact L|]. intros k x G. rewrite (Q k x G). rewrite (proj2 (Nat.ltb_lt k (length v))) by (apply (get_lt _ _ _ G)). reflexivity. }
  exists w. split; [exact E|exact Q].
Qed.
Lemma acts_conj i p q r c : (i < n)%nat -> rc r c -> acts n C ri p (e i) (e i) -> acts n C ri q r c ->
  exists p1 p2, renumber q p = Ok p1 /\ renumber p p1 = Ok p2 /\ acts n C ri p2 (sr i r) (sreflect n (flip C) i c).
Proof.
  intros Hi R [Lp A] [Lq A']. destruct (root_coroot_length n C _ _ R) as [Lr Lc].
  assert (Rp : forall k x, get p k = Some x -> (x < 2 * np)%nat).
  { intros k x G. destruct (A k) as (b & Gb & Hb & _); [rewrite <- Lp; apply (get_lt _ _ _ G)|]. congruence. }
  destruct (renumber_ok q p) as (p1 & E1 & L1 & G1); [rewrite Lq; exact Rp|].
  destruct (renumber_ok p p1) as (p2 & E2 & L2 & G2).
  { intros k x G. destruct (A k) as (b & Gb & Hb & _); [rewrite <- Lp, <- L1; apply (get_lt _ _ _ G)|]. rewrite (G1 k b Gb) in G.
    destruct (A' b Hb) as (b' & Gb' & Hb' & _). rewrite Lp. congruence. }
  exists p1, p2. split; [exact E1|]. split; [exact E2|]. split; [lia|]. intros b Hb. destruct (A b Hb) as (b1 & Gb1 & Hb1 & Eb1). destruct (A' b1 Hb1) as (b2 & Gb2 & Hb2 & Eb2).
  destruct (A b2 Hb2) as (b3 & Gb3 & Hb3 & Eb3). exists b3. split; [rewrite (G2 b b2); [exact Gb3|]; rewrite (G1 b b1 Gb1); exact Gb2|]. split; [exact Hb3|].
  pose proof (nr_length b Hb) as Lb. pose proof (nr_length b2 Hb2) as Lb2. rewrite Eb3, Eb2, Eb1, !reflect_simple by (try assumption; apply reflect_length).
  symmetry. apply (reflect_conj n C cart); assumption.
Qed.
End Num.
