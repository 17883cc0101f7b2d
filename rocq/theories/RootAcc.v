(** Access to the roots of a root system by number. *)

From Coq Require Import List Arith ZArith Bool Lia Sorted.
From Verif Require Import VecModel VecProofs RunModel RunProofs MatModel MatSpec MatRing MatLin MatProofs MatOps SizeModel BitsetSpec DynBits DynkinModel LieTypeSpec RatVecMore RootModel RootSpec RootMath RootForm RootFin RootBase RootGen RootCo RootPerm RootMake RootSys.
Import ListNotations.
Local Open Scope Z_scope.

Lemma zsum_S k f : zsum (S k) f = zsum k f + f k. Proof. reflexivity. Qed.
Lemma fold_height v : forall z, fold_left Z.add v z = z + height v.
Proof. induction v as [|x t IH]; intros z; cbn; [lia|]. rewrite IH. unfold height. lia. Qed.
Lemma away_opp n v c r : away n v c (opp r) = away n v (- c) r.
Proof. unfold away. apply map_ext. intros k. rewrite co_opp. lia. Qed.
Lemma reflect_opp n C r c v : reflect n C (opp r) (opp c) v = reflect n C r c v.
Proof. unfold reflect. rewrite away_opp, value_opp_r. f_equal. lia. Qed.
Lemma away_plus n v w : away n v 1 (opp w) = plus n v w.
Proof. unfold away, plus. apply map_ext. intros k. rewrite co_opp. lia. Qed.
Lemma nonneg_height v : nonneg v -> 0 <= height v.
Proof. intros N. rewrite height_zsum. apply zsum_nonneg. intros k _. apply N. Qed.
Lemma system_0 C s : system 0 C s -> s_ri s = [].
Proof.
  intros Y. destruct (y_table _ _ _ Y) as [link T]. destruct (s_ri s) as [|x l]; [reflexivity|]. exfalso.
  pose proof (proj2 (t_rc _ _ _ _ T 0%nat x eq_refl)) as U. assert (U0 : forall v, ~ up 0 C v) by (intros v V; induction V; lia). exact (U0 _ U).
Qed.

Section Acc.
Variables (n : nat) (C : nat -> nat -> Z) (s : rootsys).
Hypothesis n1 : (1 <= n <= 32)%nat.
Hypothesis gd : good n C.
Hypothesis gd' : good n (flip C).
Hypothesis Y : system n C s.
Notation np := (num_pos s).
Notation ri := (s_ri s).
Definition rt (a : nat) : list Z := nv r_root ri a.
Definition crt (a : nat) : list Z := nv r_coroot ri a.
Notation pair := (pairing n C).
Notation sr := (sreflect n C).

Lemma rt_rc a : (a < 2 * np)%nat -> root_coroot n C (rt a) (crt a).
Proof. destruct (y_table _ _ _ Y) as [link T]. apply (nr_rc n C link ri gd T). Qed.
Lemma rt_length a : (a < 2 * np)%nat -> length (rt a) = n. Proof. intros H. apply (root_coroot_length n C _ _ (rt_rc a H)). Qed.
Lemma crt_length a : (a < 2 * np)%nat -> length (crt a) = n. Proof. intros H. apply (root_coroot_length n C _ _ (rt_rc a H)). Qed.
Lemma rt_inj a b : (a < 2 * np)%nat -> (b < 2 * np)%nat -> rt a = rt b -> a = b.
Proof. destruct (y_table _ _ _ Y) as [link T]. apply (nr_inj n C link ri n1 T). Qed.
Lemma rt_all v : is_root n C v -> exists a, (a < 2 * np)%nat /\ rt a = v.
Proof. destruct (y_table _ _ _ Y) as [link T]. apply (nr_all n C link ri n1 gd T). Qed.
Lemma rt_all2 v w : root_coroot n C v w -> exists a, (a < 2 * np)%nat /\ rt a = v /\ crt a = w.
Proof.
  intros R. destruct (rt_all v (ex_intro _ w R)) as (a & Ha & E). exists a. split; [exact Ha|]. split; [exact E|]. apply (rc_unique n C gd v); [rewrite <- E; apply rt_rc; exact Ha|exact R].
Qed.
Lemma rt_minus a : (a < 2 * np)%nat -> (minus_nr np a < 2 * np)%nat /\ rt (minus_nr np a) = opp (rt a) /\ crt (minus_nr np a) = opp (crt a).
Proof. intros H. destruct (nr_minus n ri n1 r_root a H) as [L E]. destruct (nr_minus n ri n1 r_coroot a H) as [_ E']. split; [exact L|split; [exact E|exact E']]. Qed.
Lemma np_n : (n <= np)%nat. Proof. destruct (y_table _ _ _ Y) as [link T]. apply (np_long n C link ri n1 T). Qed.
Lemma rt_pos a x : get ri a = Some x -> rt (pos_nr np a) = r_root x. Proof. apply nv_pos. Qed.
Lemma pos_info a : (np <= a < 2 * np)%nat -> exists x, get ri (a - np) = Some x /\ rt a = r_root x /\ crt a = r_coroot x /\ up n C (rt a).
Proof.
  intros H. destruct (get_some ri (a - np)) as [x G]; [unfold num_pos in *; lia|]. exists x. split; [exact G|]. destruct (y_table _ _ _ Y) as [link T].
  assert (E : rt a = r_root x) by (rewrite <- (rt_pos _ x G); f_equal; unfold pos_nr; lia).
  split; [exact E|]. split; [|rewrite E; apply (t_rc _ _ _ _ T _ x G)]. rewrite <- (nv_pos ri r_coroot _ x G). unfold crt. f_equal. unfold pos_nr, num_pos. unfold num_pos in H. lia.
Qed.
Lemma rt_simple i : (i < n)%nat -> (pos_nr np i < 2 * np)%nat /\ rt (pos_nr np i) = basis n i /\ crt (pos_nr np i) = basis n i.
Proof.
  intros Hi. pose proof np_n. destruct (y_table _ _ _ Y) as [link T]. destruct (t_simple _ _ _ _ T i Hi) as (x & G & E). split; [unfold pos_nr; lia|].
  assert (R : rt (pos_nr np i) = basis n i) by (rewrite (rt_pos i x G); exact E). split; [exact R|]. apply (rc_unique n C gd (basis n i)); [rewrite <- R; apply rt_rc; unfold pos_nr; lia|constructor; exact Hi].
Qed.
Lemma rt_sign a : (a < 2 * np)%nat -> (nonneg (rt a) <-> (np <= a)%nat).
Proof.
  intros Ha. split.
  - intros N. destruct (le_lt_dec np a) as [L|L]; [exact L|]. exfalso. destruct (rt_minus a Ha) as (L' & E & _).
    destruct (pos_info (minus_nr np a)) as (x & _ & _ & _ & U); [unfold minus_nr in *; lia|]. pose proof (up_height n C _ U) as H. rewrite E, height_opp in H. pose proof (nonneg_height _ N). lia.
  - intros L. destruct (pos_info a ltac:(lia)) as (x & _ & _ & _ & U). apply (up_nonneg n C). exact U.
Qed.
Lemma up_pos a : (a < 2 * np)%nat -> (up n C (rt a) <-> (np <= a)%nat).
Proof. intros Ha. rewrite <- (rt_sign a Ha). split; [apply (up_nonneg n C)|]. intros N. apply (up_iff n C (proj1 gd) (small n C gd)). split; [eexists; apply rt_rc; exact Ha|exact N]. Qed.
Lemma crt_byte a k : (a < 2 * np)%nat -> (-126 <= co (rt a) k <= 126) /\ (-126 <= co (crt a) k <= 126).
Proof.
  intros Ha. destruct (le_lt_dec np a) as [L|L].
  - pose proof (proj2 (up_pos a Ha) L) as U. pose proof (up_co n C n1 gd _ k U). pose proof (up_co n (flip C) n1 gd' _ k (rc_up_co n C gd _ _ (rt_rc a Ha) U)). lia.
  - destruct (rt_minus a Ha) as (L' & E & E'). assert (H : (np <= minus_nr np a)%nat) by (unfold minus_nr; lia). pose proof (proj2 (up_pos _ L') H) as U.
    pose proof (up_co n C n1 gd _ k U) as B. pose proof (up_co n (flip C) n1 gd' _ k (rc_up_co n C gd _ _ (rt_rc _ L') U)) as B'. rewrite E, co_opp in B. rewrite E', co_opp in B'. lia.
Qed.

(** the vectors *)
Lemma any_any proj a : (proj = r_root \/ proj = r_coroot) -> (a < 2 * np)%nat -> any_vec proj s a = Ok (nv proj ri a).
Proof.
  intros P Ha. unfold any_vec, nv, num_pos in *. unfold abs_nr, is_pos in *. destruct (Nat.leb_spec (length ri) a) as [L|L].
  - destruct (get_some ri (a - length ri)) as [x G]; [lia|]. rewrite (vget_ok _ _ _ G), G. reflexivity.
  - destruct (get_some ri (length ri - 1 - a)) as [x G]; [lia|]. rewrite (vget_ok _ _ _ G), G. cbn [bind]. f_equal. unfold neg8, opp. apply map_ext_in. intros z I. apply s8_id.
    destruct (In_get _ _ I) as [k Gk]. pose proof (crt_byte (length ri - 1 - (length ri - 1 - a)) k) as B. 
    assert (E : rt (length ri - 1 - (length ri - 1 - a)) = opp (r_root x)) by apply (nv_neg ri r_root _ x G).
    assert (E' : crt (length ri - 1 - (length ri - 1 - a)) = opp (r_coroot x)) by apply (nv_neg ri r_coroot _ x G).
    rewrite E, E', !co_opp in B. unfold byte_range. unfold num_pos in B. pose proof (get_lt _ _ _ Gk) as Lk. assert (Ez : co (proj x) k = z) by (rewrite get_co in Gk by exact Lk; congruence).
    destruct P as [-> | ->]; lia.
Qed.
Lemma root_any_ok a : (a < 2 * np)%nat -> root_any s a = Ok (rt a). Proof. intros H. apply any_any; [left; reflexivity|exact H]. Qed.
Lemma coroot_any_ok a : (a < 2 * np)%nat -> coroot_any s a = Ok (crt a). Proof. intros H. apply any_any; [right; reflexivity|exact H]. Qed.
Lemma expr_any proj a : (a < 2 * np)%nat -> expr_vec proj s a = Ok (nv proj ri a).
Proof.
  intros Ha. unfold expr_vec, nv, num_pos in *. destruct (get_some ri (abs_nr (length ri) a)) as [x G].
  { unfold abs_nr, is_pos. destruct (Nat.leb_spec (length ri) a); lia. }
  rewrite (vget_ok _ _ _ G), G. cbn [bind]. destruct (is_pos (length ri) a); [reflexivity|]. f_equal. apply map_ext. intros z. lia.
Qed.
Lemma level_any proj a : (a < 2 * np)%nat -> level_of proj s a = Ok (height (nv proj ri a)).
Proof.
  intros Ha. unfold level_of, nv, num_pos in *. destruct (get_some ri (abs_nr (length ri) a)) as [x G].
  { unfold abs_nr, is_pos. destruct (Nat.leb_spec (length ri) a); lia. }
  rewrite (vget_ok _ _ _ G), G. cbn [bind]. rewrite fold_height. destruct (is_pos (length ri) a); [reflexivity|]. rewrite height_opp. f_equal. lia.
Qed.

(** ** Reflections *)
Lemma abs_info a : (a < 2 * np)%nat -> exists x, get ri (abs_nr np a) = Some x /\ forall v, reflect n C (r_root x) (r_coroot x) v = reflect n C (rt a) (crt a) v.
Proof.
  intros Ha. destruct (get_some ri (abs_nr np a)) as [x G]; [unfold abs_nr, is_pos, num_pos in *; destruct (Nat.leb_spec (length ri) a); lia|]. exists x. split; [exact G|]. intros v. unfold rt, crt, nv. fold np. rewrite G.
  destruct (is_pos np a); [reflexivity|]. symmetry. apply reflect_opp.
Qed.
Lemma reflected_ok a b : (a < 2 * np)%nat -> (b < 2 * np)%nat -> exists c, reflected s a b = Ok c /\ (c < 2 * np)%nat /\ rt c = reflect n C (rt a) (crt a) (rt b) /\
  crt c = reflect n (flip C) (crt a) (rt a) (crt b).
Proof.
  intros Ha Hb. destruct (abs_info a Ha) as (x & G & E). unfold reflected. rewrite (vget_ok _ _ _ G). cbn [bind]. destruct (y_perm _ _ _ Y _ x G) as [_ A]. destruct (A b Hb) as (c & Gc & Hc & Ec).
  exists c. split; [apply vget_ok; exact Gc|]. split; [exact Hc|]. rewrite E in Ec. split; [exact Ec|].
  apply (rc_unique n C gd (rt c)); [apply rt_rc; exact Hc|]. unfold rt at 1. rewrite Ec. apply (reflect_root n C (proj1 gd)); apply rt_rc; assumption.
Qed.
Lemma simple_reflected_ok i b : (i < n)%nat -> (b < 2 * np)%nat -> exists c, simple_reflected s i b = Ok c /\ (c < 2 * np)%nat /\ rt c = sr i (rt b) /\ crt c = sreflect n (flip C) i (crt b).
Proof.
  intros Hi Hb. destruct (rt_simple i Hi) as (L & E & E'). destruct (reflected_ok _ b L Hb) as (c & Ec & Hc & R & R'). exists c. split.
  - rewrite <- Ec. unfold reflected, simple_reflected. f_equal. f_equal. unfold abs_nr, is_pos, pos_nr. destruct (Nat.leb_spec np (np + i)); lia.
  - split; [exact Hc|]. rewrite R, R', E, E'. split; apply reflect_simple; try exact Hi; [apply rt_length|apply crt_length]; exact Hb.
Qed.
(** the other roots made negative by a simple reflection: none *)
Lemma simple_sign i b c : (i < n)%nat -> (b < 2 * np)%nat -> (c < 2 * np)%nat -> rt c = sr i (rt b) -> b <> pos_nr np i -> b <> neg_nr np i -> ((np <= c)%nat <-> (np <= b)%nat).
Proof.
  intros Hi Hb Hc E N N'. pose proof np_n as Np.
  assert (K : forall b c, (b < 2 * np)%nat -> (c < 2 * np)%nat -> rt c = sr i (rt b) -> b <> pos_nr np i -> (np <= b)%nat -> (np <= c)%nat).
  { clear b c Hb Hc E N N'. intros b c Hb Hc E N L. apply up_pos; [exact Hc|]. rewrite E. apply (up_closed n C (proj1 gd) (small n C gd)); [apply up_pos; assumption|exact Hi|].
    intros Q. apply N. destruct (rt_simple i Hi) as (L' & E' & _). apply rt_inj; [exact Hb|exact L'|congruence]. }
  split; [|apply (K b c); assumption]. intros L. destruct (le_lt_dec np b) as [Q|Q]; [exact Q|]. exfalso.
  destruct (rt_minus b Hb) as (Mb & Eb & _). destruct (rt_minus c Hc) as (Mc & Ec & _). assert (np <= minus_nr np c)%nat; [|unfold minus_nr in *; lia].
  apply (K (minus_nr np b) (minus_nr np c)); try assumption; [rewrite Eb, Ec, E; symmetry; apply sr_opp; rewrite rt_length; assumption|unfold minus_nr, pos_nr, neg_nr in *; lia|unfold minus_nr; lia].
Qed.
Lemma orthogonal_ok a b : (a < 2 * np)%nat -> (b < 2 * np)%nat -> exists t, is_orthogonal s a b = Ok t /\ (t = true <-> value n C (rt b) (crt a) = 0).
Proof.
  intros Ha Hb. destruct (reflected_ok a b Ha Hb) as (c & Ec & Hc & R & _). unfold is_orthogonal. rewrite Ec. cbn [bind]. eexists. split; [reflexivity|]. rewrite Nat.eqb_eq.
  destruct (proj1 (proj2 gd)) as (d & D1 & D2 & _). destruct (root_nonzero n C d (proj1 gd) D1 D2 _ _ (rt_rc a Ha)) as (k & Hk & Nz).
  split.
  - intros ->. apply (f_equal (fun v => co v k)) in R. unfold reflect in R. rewrite co_away in R by (apply rt_length; assumption). nia.
  - intros Z. apply rt_inj; [exact Hc|exact Hb|]. rewrite R. unfold reflect. rewrite Z. apply vec_ext; [rewrite away_length, rt_length by exact Hb; reflexivity|]. intros j _.
    rewrite co_away by (apply rt_length; assumption). lia.
Qed.
Lemma value_sym0 a b : (a < 2 * np)%nat -> (b < 2 * np)%nat -> (value n C (rt a) (crt b) = 0 <-> value n C (rt b) (crt a) = 0) /\ (0 < value n C (rt a) (crt b) <-> 0 < value n C (rt b) (crt a)).
Proof.
  intros Ha Hb. destruct (proj1 (proj2 gd)) as (d & D1 & D2 & D3). destruct (values_sign n C d (proj1 gd) D1 D2 _ _ _ _ (rt_rc a Ha) (rt_rc b Hb)) as [P Z]. split; assumption.
Qed.
(** products of integers in the pairing of a root and a coroot *)
Lemma bracket_ok a b : (a < 2 * np)%nat -> (b < 2 * np)%nat -> bracket s a b = Ok (value n C (rt a) (crt b)).
Proof.
  intros Ha Hb. unfold bracket. destruct (orthogonal_ok a b Ha Hb) as (t & -> & Et). cbn [bind]. destruct t.
  { f_equal. symmetry. apply (proj1 (value_sym0 a b Ha Hb)). apply Et. reflexivity. }
  assert (Lt : forall a, (a < 2 * np)%nat -> (abs_nr np a < length ri)%nat) by (intros a' H; unfold abs_nr, is_pos, num_pos in *; destruct (Nat.leb_spec (length ri) a'); lia).
  destruct (get_some ri (abs_nr np a) (Lt a Ha)) as [x Gx]. destruct (get_some ri (abs_nr np b) (Lt b Hb)) as [y Gy]. rewrite (vget_ok _ _ _ Gx), (vget_ok _ _ _ Gy). cbn [bind].
  destruct (y_table _ _ _ Y) as [link T]. destruct (root_coroot_length n C _ _ (proj1 (t_rc _ _ _ _ T _ x Gx))) as [Lx _]. destruct (root_coroot_length n C _ _ (proj1 (t_rc _ _ _ _ T _ y Gy))) as [_ Ly].
  rewrite (y_rank _ _ _ Y).
  assert (Q : exists c, upto n 0 (fun i c => upto n 0 (fun j c1 => run p <- vget (r_root x) i; run m <- mget (s_Cmat s) i j; run q <- vget (r_coroot y) j; Ok (c1 + p * m * q)) c) 0 = Ok c /\
    c = value n C (r_root x) (r_coroot y)).
  { apply gives_none. apply (gives_upto0 (fun i c => c = zsum i (fun i => zsum n (fun j => co (r_root x) i * C i j * co (r_coroot y) j)))).
    - reflexivity.
    - intros i c Hi ->. apply (gives_upto0 (fun j c => c = zsum i (fun i => zsum n (fun j => co (r_root x) i * C i j * co (r_coroot y) j)) + zsum j (fun j => co (r_root x) i * C i j * co (r_coroot y) j))).
      + cbn. lia.
      + intros j c Hj ->. rewrite (vget_ok _ _ _ (get_co (r_root x) i ltac:(lia))). cbn [bind]. rewrite (mget_ok _ _ _ _ i j (y_C _ _ _ Y) Hi Hj). cbn [bind].
        rewrite (vget_ok _ _ _ (get_co (r_coroot y) j ltac:(lia))). cbn [bind gives]. rewrite (zsum_S j). lia.
      + intros c ->. reflexivity.
    - intros c ->. reflexivity. }
  destruct Q as (c & -> & ->). cbn [bind]. f_equal. unfold rt, crt, nv. fold np. rewrite Gx, Gy. destruct (is_pos np a), (is_pos np b); cbn [Bool.eqb]; rewrite ?value_opp_l, ?value_opp_r; lia.
Qed.
Lemma Cartan_of_ok rb : (forall a, In a rb -> (a < 2 * np)%nat) -> exists M, Cartan_of s rb = Ok M /\ is_mx M (length rb) (length rb) (fun i j => value n C (rt (nth i rb 0%nat)) (crt (nth j rb 0%nat))).
Proof.
  intros H. unfold Cartan_of. set (r := length rb). set (f := fun i j => value n C (rt (nth i rb 0%nat)) (crt (nth j rb 0%nat))). apply gives_none.
  assert (G : forall i, (i < r)%nat -> vget rb i = Ok (nth i rb 0%nat) /\ (nth i rb 0%nat < 2 * np)%nat).
  { intros i Hi. split; [apply vget_ok; unfold get; apply nth_error_nth'; exact Hi|]. apply H. apply nth_In. exact Hi. }
  apply (gives_upto0 (fun i M => is_mx M r r (fun a b => if Nat.ltb a i then f a b else 0))).
  - apply (fill_ok r r 0).
  - intros i M Hi HM. apply (gives_upto0 (fun j M => is_mx M r r (fun a b => if (Nat.ltb a i || Nat.eqb a i && Nat.ltb b j)%bool then f a b else 0))).
    + eapply is_mx_ext; [exact HM|]. intros a b Ha Hb. cbn. rewrite andb_false_r, orb_false_r. reflexivity.
    + intros j M1 Hj HM1. destruct (G i Hi) as [-> Gi]. destruct (G j Hj) as [-> Gj]. cbn [bind]. rewrite (bracket_ok _ _ Gi Gj). cbn [bind].
      apply (gives_mput _ _ _ _ i j _ _ HM1 Hi Hj). intros M2 HM2. eapply is_mx_ext; [exact HM2|]. intros a b Ha Hb. unfold upd.
      destruct (Nat.eqb_spec a i) as [->|Na]; cbn [andb].
      * rewrite Nat.ltb_irrefl. cbn [orb]. destruct (Nat.eqb_spec b j) as [->|Nb]; [destruct (Nat.ltb_spec j (S j)); [reflexivity|lia]|].
        destruct (Nat.ltb_spec b j), (Nat.ltb_spec b (S j)); reflexivity || lia.
      * reflexivity.
    + intros M1 HM1. eapply is_mx_ext; [exact HM1|]. intros a b Ha Hb.
      destruct (Nat.eqb_spec a i), (Nat.ltb_spec a i), (Nat.ltb_spec b r), (Nat.ltb_spec a (S i)); cbn [orb andb]; reflexivity || lia.
  - intros M HM. eapply is_mx_ext; [exact HM|]. intros a b Ha Hb. destruct (Nat.ltb_spec a r); [reflexivity|lia].
Qed.
(** words *)
Lemma permuted_left_ok ww a : Forall (fun i => (i < n)%nat) ww -> (a < 2 * np)%nat -> exists b, permuted_left s ww a = Ok b /\ (b < 2 * np)%nat /\ rt b = word_act n C ww (rt a).
Proof.
  intros W Ha. unfold permuted_left. apply gives_none. apply (gives_downto (fun k b => (b < 2 * np)%nat /\ rt b = word_act n C (skipn k ww) (rt a))).
  - split; [exact Ha|]. rewrite skipn_all. reflexivity.
  - intros k b Hk [Hb E]. destruct (get_some ww k Hk) as [i G]. rewrite (vget_ok _ _ _ G). cbn [bind].
    assert (Hi : (i < n)%nat) by (apply (proj1 (Forall_forall _ _) W); apply (get_In _ _ _ G)).
    destruct (simple_reflected_ok i b Hi Hb) as (c & -> & Hc & R & _). cbn [gives]. split; [exact Hc|]. rewrite R, E.
    assert (Sk : skipn k ww = i :: skipn (S k) ww).
    { clear - G. unfold get in G. revert k G. induction ww as [|x t IH]; intros k G; destruct k; cbn in G |- *; try discriminate; [congruence|]. rewrite (IH k G). reflexivity. }
    rewrite Sk. reflexivity.
  - intros b Q. exact Q.
Qed.
Lemma permuted_right_ok ww a : Forall (fun i => (i < n)%nat) ww -> (a < 2 * np)%nat -> exists b, permuted_right s a ww = Ok b /\ (b < 2 * np)%nat /\ rt b = word_act n C (rev ww) (rt a).
Proof.
  intros W Ha. unfold permuted_right. apply gives_none. apply (gives_upto0 (fun k b => (b < 2 * np)%nat /\ rt b = word_act n C (rev (firstn k ww)) (rt a))).
  - split; [exact Ha|]. reflexivity.
  - intros k b Hk [Hb E]. destruct (get_some ww k Hk) as [i G]. rewrite (vget_ok _ _ _ G). cbn [bind].
    assert (Hi : (i < n)%nat) by (apply (proj1 (Forall_forall _ _) W); apply (get_In _ _ _ G)).
    destruct (simple_reflected_ok i b Hi Hb) as (c & -> & Hc & R & _). cbn [gives]. split; [exact Hc|]. rewrite R, E.
    assert (Sk : firstn (S k) ww = firstn k ww ++ [i]).
    { clear - G. unfold get in G. revert k G. induction ww as [|x t IH]; intros k G; destruct k; cbn in G |- *; try discriminate; [congruence|]. f_equal. apply (IH k G). }
    rewrite Sk, rev_app_distr. reflexivity.
  - intros b [Hb E]. rewrite firstn_all in E. split; assumption.
Qed.
(** ** Descents *)
Lemma descent_set_ok a : (a < 2 * np)%nat -> exists d e, descent_set s a = Ok d /\ ascent_set s a = Ok e /\ is32 d /\ is32 e /\ (forall i, mem d i = true <-> (i < n)%nat /\ 0 < pair (rt a) i) /\ (forall i, mem e i = true <-> (i < n)%nat /\ pair (rt a) i < 0).
Proof.
  intros Ha. unfold descent_set, ascent_set. destruct (get_some ri (abs_nr np a)) as [x G]; [unfold abs_nr, is_pos, num_pos in *; destruct (Nat.leb_spec (length ri) a); lia|].
  rewrite (vget_ok _ _ _ G). cbn [bind]. eexists. eexists. split; [reflexivity|]. split; [reflexivity|]. destruct (y_table _ _ _ Y) as [link T]. destruct (t_bits _ _ _ _ T _ x G) as (I1 & I2 & B).
  split; [destruct (is_pos np a); assumption|]. split; [destruct (is_pos np a); assumption|].
  unfold rt, nv. fold np. rewrite G. destruct (is_pos np a); split; intros i; destruct (B i) as [B1 B2]; [exact B1|exact B2| |]; rewrite pair_opp; [rewrite B2|rewrite B1]; split; intros [P Q]; split; lia.
Qed.
(** ** Sums *)
Lemma sum_ok a b : (a < 2 * np)%nat -> (b < 2 * np)%nat -> exists t, sum_is_root s a b = Ok t /\ (t = true <-> is_root n C (plus n (rt b) (rt a))).
Proof.
  intros Ha Hb. unfold sum_is_root. destruct (rt_minus a Ha) as (L & E & _). destruct (y_bot _ _ _ Y _ L) as (B & G & _ & Q). rewrite (vget_ok _ _ _ G). cbn [bind]. eexists. split; [reflexivity|].
  specialize (Q b Hb). fold (rt b) in Q. fold (rt (minus_nr np a)) in Q. rewrite E, away_plus in Q.
  destruct (bmem B b) eqn:M; cbn [negb].
  - split; [discriminate|]. intros R. destruct (proj1 Q eq_refl R).
  - split; [|reflexivity]. intros _.
    assert (D : is_root n C (plus n (rt b) (rt a)) \/ ~ is_root n C (plus n (rt b) (rt a))).
    { destruct (in_dec (list_eq_dec Z.eq_dec) (plus n (rt b) (rt a)) (map rt (seq 0 (2 * np)))) as [I|I].
      - left. apply in_map_iff in I. destruct I as (c & <- & Ic). apply in_seq in Ic. eexists. apply rt_rc. lia.
      - right. intros R. apply I. destruct (rt_all _ R) as (c & Hc & <-). apply in_map. apply in_seq. lia. }
    destruct D as [D|D]; [exact D|]. apply Q in D. discriminate.
Qed.
Lemma cosum_ok a b : (a < 2 * np)%nat -> (b < 2 * np)%nat -> exists t, sum_is_coroot s a b = Ok t /\ (t = true <-> is_root n (flip C) (plus n (crt b) (crt a))).
Proof.
  intros Ha Hb. unfold sum_is_coroot. destruct (rt_minus a Ha) as (L & _ & E). destruct (y_cobot _ _ _ Y _ L) as (B & G & _ & Q). rewrite (vget_ok _ _ _ G). cbn [bind]. eexists. split; [reflexivity|].
  rewrite map_length in Q. specialize (Q b Hb). rewrite !nv_swap in Q. fold (crt b) in Q. fold (crt (minus_nr np a)) in Q. rewrite E, away_plus in Q.
  destruct (bmem B b) eqn:M; cbn [negb].
  - split; [discriminate|]. intros R. destruct (proj1 Q eq_refl R).
  - split; [|reflexivity]. intros _.
    assert (D : is_root n (flip C) (plus n (crt b) (crt a)) \/ ~ is_root n (flip C) (plus n (crt b) (crt a))).
    { destruct (in_dec (list_eq_dec Z.eq_dec) (plus n (crt b) (crt a)) (map crt (seq 0 (2 * np)))) as [I|I].
      - left. apply in_map_iff in I. destruct I as (c & <- & Ic). apply in_seq in Ic. eexists. apply rc_flip. apply rt_rc. lia.
      - right. intros [w R]. apply I. apply rc_flip in R. destruct (rt_all2 _ _ R) as (c & Hc & _ & <-). apply in_map. apply in_seq. lia. }
    destruct D as [D|D]; [exact D|]. apply Q in D. discriminate.
Qed.
End Acc.
