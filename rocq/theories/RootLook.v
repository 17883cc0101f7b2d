(** Looking up roots, walls of the alcove, dominant roots, and the order of the numbers. *)

From Coq Require Import List Arith ZArith Bool Lia Sorted.
From Verif Require Import VecModel VecProofs RunModel RunProofs MatModel MatSpec MatRing MatLin MatProofs MatOps SizeModel BitsetSpec DynBits DynkinModel LieTypeSpec RatVecMore RootModel RootSpec RootMath RootForm RootFin RootBase RootGen RootCo RootPerm RootMake RootSys RootAcc.
Import ListNotations.
Local Open Scope Z_scope.

Lemma first_nonzero_none v : first_nonzero v = None <-> forall k, co v k = 0.
Proof.
  induction v as [|x t IH]; cbn; [split; [intros _ k; destruct k; reflexivity|reflexivity]|]. destruct (Z.eqb_spec x 0) as [->|N].
  - rewrite IH. split; intros H k; [destruct k; [reflexivity|apply H]|apply (H (S k))].
  - split; [discriminate|]. intros H. destruct (N (H 0%nat)).
Qed.
Lemma first_nonzero_some v x : first_nonzero v = Some x -> x <> 0 /\ exists k, co v k = x.
Proof.
  induction v as [|y t IH]; cbn; [discriminate|]. destruct (Z.eqb_spec y 0) as [->|N].
  - intros H. destruct (IH H) as [Q [k E]]. split; [exact Q|]. exists (S k). exact E.
  - intros [= <-]. split; [exact N|]. exists 0%nat. reflexivity.
Qed.
Lemma co_neg8 v k : (k < length v)%nat -> co (neg8 v) k = s8 (- co v k).
Proof.
  intros H. unfold neg8, co. rewrite (nth_indep (map _ v) 0 (s8 (- 0))) by (rewrite map_length; exact H). apply (map_nth (fun x => s8 (- x))).
Qed.
Lemma bmem_map {A} (f : A -> bool) (l : list A) k : bmem (map f l) k = match get l k with Some x => f x | None => false end.
Proof.
  unfold bmem, get. destruct (nth_error l k) as [x|] eqn:E; [apply nth_error_nth; apply map_nth_error; exact E|]. apply nth_overflow. rewrite map_length. apply nth_error_None. exact E.
Qed.
Lemma get_seq m k : get (seq 0 m) k = if Nat.ltb k m then Some k else None.
Proof.
  unfold get. destruct (Nat.ltb_spec k m) as [L|L]; [rewrite (nth_error_nth' _ 0%nat) by (rewrite seq_length; exact L); rewrite seq_nth by exact L; reflexivity|apply nth_error_None; rewrite seq_length; exact L].
Qed.
Lemma bmem_zip (f : bool -> bool -> bool) (b c : bset) k : length b = length c -> (k < length b)%nat -> bmem (map (fun '(x, y) => f x y) (combine b c)) k = f (bmem b k) (bmem c k).
Proof.
  revert c k. induction b as [|x b IH]; intros [|y c] k L H; cbn in *; try lia. destruct k as [|k]; [reflexivity|]. apply (IH c k); lia.
Qed.

Section Look.
Variables (n : nat) (C : nat -> nat -> Z) (s : rootsys).
Hypothesis n1 : (1 <= n <= 32)%nat.
Hypothesis gd : good n C.
Hypothesis gd' : good n (flip C).
Hypothesis Y : system n C s.
Notation np := (num_pos s).
Notation ri := (s_ri s).
Notation rt := (rt s).
Notation crt := (crt s).
Notation pair := (pairing n C).

(** ** Looking up *)
Definition vec_of (proj : root_info -> list Z) (a : nat) : list Z := nv proj ri a.
Lemma lookup_any proj v : (proj = r_root \/ proj = r_coroot) -> (forall k, byte_range (co v k)) ->
  (exists a, (a < 2 * np)%nat /\ nv proj ri a = v /\ lookup_vec proj s v = Ok (minus_nr np a)) \/
  ((forall a, (a < 2 * np)%nat -> nv proj ri a <> v) /\ lookup_vec proj s v = Ok (2 * np)%nat).
Proof.
  intros P By. unfold lookup_vec.
  assert (nn : forall a x, get ri a = Some x -> (forall k, 0 <= co (proj x) k <= 126) /\ exists k, co (proj x) k <> 0).
  { intros a x G. destruct (y_table _ _ _ Y) as [link T]. destruct (t_rc _ _ _ _ T a x G) as [R U]. pose proof (rc_up_co n C gd _ _ R U) as U'.
    destruct (proj1 (proj2 gd)) as (d & D1 & D2 & _). destruct (proj1 (proj2 gd')) as (d' & D1' & D2' & _).
    split; destruct P as [-> | ->].
    - intros k. apply (up_co n C n1 gd _ k U).
    - intros k. apply (up_co n (flip C) n1 gd' _ k U').
    - destruct (root_nonzero n C d (proj1 gd) D1 D2 _ _ R) as (k & _ & Q). exists k. exact Q.
    - destruct (root_nonzero n (flip C) d' (proj1 gd') D1' D2' _ _ (rc_flip n C _ _ R)) as (k & _ & Q). exists k. exact Q. }
  destruct (first_nonzero v) as [x|] eqn:F.
  - destruct (first_nonzero_some v x F) as (Nx & k0 & Ek).
    assert (N8 : forall y, (forall k, 0 <= co y k <= 126) -> neg8 v = y -> v = opp y).
    { intros y By' <-. apply vec_ext; [unfold neg8; rewrite opp_length, map_length; reflexivity|]. intros k Hk. specialize (By' k). rewrite co_opp. rewrite co_neg8 in By' |- * by exact Hk. specialize (By k). unfold byte_range in By.
      destruct (Z.eq_dec (co v k) (-128)) as [E|E]; [rewrite E in By'; vm_compute in By'; destruct By'; congruence|]. rewrite s8_id by (unfold byte_range; lia). lia. }
    assert (O8 : forall y, (forall k, 0 <= co y k <= 126) -> v = opp y -> neg8 v = y).
    { intros y By' ->. unfold neg8, opp. rewrite map_map. rewrite <- (map_id y) at 2. apply map_ext_in. intros z I. destruct (In_get _ _ I) as [k G]. pose proof (get_lt _ _ _ G) as Lk. rewrite get_co in G by exact Lk.
      injection G as <-. rewrite Z.opp_involutive. apply s8_id. unfold byte_range. specialize (By' k). lia. }
    destruct (look_ok proj ri (if (x <? 0)%Z then neg8 v else v) np 0 ltac:(unfold num_pos; lia)) as (o & -> & Q). cbn [bind].
    destruct o as [pr|].
    + destruct Q as (Hp & y & Gy & Ey). left. destruct (nn _ y Gy) as [Bn _]. destruct (Z.ltb_spec x 0) as [Lx|Lx].
      * exists (neg_nr np pr). split; [unfold neg_nr; lia|]. split; [etransitivity; [apply (nv_neg ri proj _ y Gy)|]; symmetry; apply N8; [exact Bn|congruence]|]. f_equal. unfold minus_nr, neg_nr, pos_nr. lia.
      * exists (pos_nr np pr). split; [unfold pos_nr; lia|]. split; [etransitivity; [apply (nv_pos ri proj _ y Gy)|]; exact Ey|]. f_equal. unfold minus_nr, neg_nr, pos_nr. lia.
    + right. split; [|reflexivity]. intros a Ha E. destruct (nr_cases ri a Ha) as (a0 & y & Gy & Ha0 & Ca). destruct (nn _ y Gy) as [Bn _]. unfold num_pos in Q.
      destruct Ca as [-> | ->].
      * rewrite (nv_pos ri proj _ y Gy) in E. destruct (Z.ltb_spec x 0) as [Lx|Lx]; [specialize (Bn k0); rewrite E in Bn; lia|]. apply (Q a0 y); [lia|exact Gy|exact E].
      * rewrite (nv_neg ri proj _ y Gy) in E. destruct (Z.ltb_spec x 0) as [Lx|Lx]; [|specialize (Bn k0); rewrite <- E, co_opp in Ek; lia].
        apply (Q a0 y); [lia|exact Gy|]. symmetry. apply O8; [exact Bn|congruence].
  - right. split; [|reflexivity]. intros a Ha E. destruct (nr_cases ri a Ha) as (a0 & y & Gy & _ & Ca). destruct (nn _ y Gy) as (_ & k & Nk). pose proof (proj1 (first_nonzero_none v) F k) as Z. rewrite <- E in Z.
    destruct Ca as [-> | ->]; [rewrite (nv_pos ri proj _ y Gy) in Z|rewrite (nv_neg ri proj _ y Gy), co_opp in Z]; lia.
Qed.
Lemma add8_ok v w : length v = n -> length w = n -> (forall k, byte_range (co (plus n v w) k)) -> add8 v w = plus n v w.
Proof.
  intros Lv Lw B. unfold add8. apply vec_ext; [rewrite map_length, combine_length, plus_length; lia|]. rewrite map_length, combine_length. intros k Hk.
  specialize (B k). rewrite co_plus in B |- * by assumption. assert (Ez : forall (l : list (Z * Z)), (k < length l)%nat -> nth k (map (fun '(x, y) => s8 (x + y)) l) 0 = s8 (fst (nth k l (0, 0)) + snd (nth k l (0, 0)))).
  { clear. revert k. intros k l. revert k. induction l as [|[x y] t IH]; intros k H; cbn in H; [lia|]. destruct k as [|k]; [reflexivity|]. cbn [map nth]. apply IH. lia. }
  unfold co at 1. rewrite Ez by (rewrite combine_length; exact Hk). rewrite combine_nth by lia. apply s8_id. exact B.
Qed.
Lemma root_add_ok a b c : (a < 2 * np)%nat -> (b < 2 * np)%nat -> (c < 2 * np)%nat -> rt c = plus n (rt a) (rt b) -> root_add s a b = Ok (minus_nr np c).
Proof.
  intros Ha Hb Hc E. unfold root_add. rewrite (root_any_ok n C s n1 gd gd' Y a Ha). cbn [bind]. rewrite (root_any_ok n C s n1 gd gd' Y b Hb). cbn [bind].
  assert (By : forall k, byte_range (co (plus n (rt a) (rt b)) k)) by (intros k; rewrite <- E; destruct (crt_byte n C s n1 gd gd' Y c k Hc); unfold byte_range; lia).
  rewrite add8_ok by (try exact By; apply (rt_length n C s gd Y); assumption).
  destruct (lookup_any r_root _ (or_introl eq_refl) By) as [(c' & Hc' & E' & L)|[N _]]; [|destruct (N c Hc E)].
  unfold lookup_root. rewrite L. f_equal. f_equal. apply (rt_inj n C s n1 Y); [exact Hc'|exact Hc|]. rewrite E. exact E'.
Qed.
Lemma coroot_add_ok a b c : (a < 2 * np)%nat -> (b < 2 * np)%nat -> (c < 2 * np)%nat -> crt c = plus n (crt a) (crt b) -> coroot_add s a b = Ok (minus_nr np c).
Proof.
  intros Ha Hb Hc E. unfold coroot_add. rewrite (coroot_any_ok n C s n1 gd gd' Y a Ha). cbn [bind]. rewrite (coroot_any_ok n C s n1 gd gd' Y b Hb). cbn [bind].
  assert (By : forall k, byte_range (co (plus n (crt a) (crt b)) k)) by (intros k; rewrite <- E; destruct (crt_byte n C s n1 gd gd' Y c k Hc); unfold byte_range; lia).
  rewrite add8_ok by (try exact By; apply (crt_length n C s gd Y); assumption).
  destruct (lookup_any r_coroot _ (or_intror eq_refl) By) as [(c' & Hc' & E' & L)|[N _]]; [|destruct (N c Hc E)].
  unfold lookup_coroot. rewrite L. f_equal. f_equal. pose proof (rt_rc n C s gd Y c Hc) as R. pose proof (rt_rc n C s gd Y c' Hc') as R'.
  assert (Ec : crt c' = crt c) by (rewrite E; exact E'). rewrite Ec in R'. apply (rt_inj n C s n1 Y); [exact Hc'|exact Hc|]. apply (rc_unique n (flip C) gd' (crt c)); apply rc_flip; assumption.
Qed.

(** ** The walls of the fundamental alcove *)
Lemma walls_ok : exists B, alcove_walls s = Ok B /\ length B = (2 * np)%nat /\ forall a, (a < 2 * np)%nat ->
  (bmem B a = true <-> (np <= a < np + n)%nat \/ ((a < np)%nat /\ forall i, (i < n)%nat -> ~ is_root n (flip C) (away n (crt a) 1 (basis n i)))).
Proof.
  unfold alcove_walls. rewrite (y_rank _ _ _ Y). pose proof (np_n n C s n1 Y) as Np.
  assert (Q : exists low, upto n 0 (fun i b => run t <- vget (s_cobot s) (pos_nr np i); Ok (map (fun '(x, y) => x && y)%bool (combine b t))) (map negb (posroot_set s)) = Ok low /\
    length low = (2 * np)%nat /\ forall a, (a < 2 * np)%nat -> (bmem low a = true <-> (a < np)%nat /\ forall i, (i < n)%nat -> ~ is_root n (flip C) (away n (crt a) 1 (basis n i)))).
  { apply gives_none. apply (gives_upto0 (fun k (low : bset) => length low = (2 * np)%nat /\ forall a, (a < 2 * np)%nat -> (bmem low a = true <-> (a < np)%nat /\ forall i, (i < k)%nat -> ~ is_root n (flip C) (away n (crt a) 1 (basis n i))))).
    - unfold posroot_set, num_roots. split; [rewrite !map_length, seq_length; reflexivity|]. intros a Ha. rewrite map_map, bmem_map, get_seq. destruct (Nat.ltb_spec a (2 * np)); [|lia].
      destruct (Nat.leb_spec np a); cbn [negb]; split; try discriminate; try lia; intros _. split; [lia|intros; lia].
    - intros k low Hk [L A]. destruct (rt_simple n C s n1 gd Y k Hk) as (Hp & _ & Ec). destruct (y_cobot _ _ _ Y _ Hp) as (B & G & LB & Q). rewrite (vget_ok _ _ _ G). cbn [bind gives].
      rewrite map_length in LB, Q. fold np in LB, Q. split; [rewrite map_length, combine_length; lia|]. intros a Ha. rewrite (bmem_zip andb) by lia. rewrite andb_true_iff, (A a Ha).
      specialize (Q a Ha). rewrite !nv_swap in Q. fold (crt a) in Q. fold (crt (pos_nr np k)) in Q. rewrite Ec in Q. rewrite Q.
      split; [intros [[P1 P2] P3]; split; [exact P1|]; intros i Hi; destruct (Nat.eq_dec i k) as [->|]; [exact P3|apply P2; lia]|]. intros [P1 P2]. split; [split; [exact P1|]; intros i Hi; apply P2; lia|apply P2; lia].
    - intros low Q. exact Q. }
  destruct Q as (low & -> & L & A). cbn [bind]. eexists. split; [reflexivity|]. assert (Ls : length (simple_root_set s) = (2 * np)%nat) by (unfold simple_root_set, num_roots; rewrite map_length, seq_length; reflexivity).
  split; [rewrite map_length, combine_length; lia|]. intros a Ha. rewrite (bmem_zip orb) by lia. rewrite orb_true_iff, (A a Ha). unfold simple_root_set. rewrite bmem_map, get_seq. unfold num_roots.
  destruct (Nat.ltb_spec a (2 * np)); [|lia]. rewrite (y_rank _ _ _ Y), andb_true_iff, Nat.leb_le, Nat.ltb_lt. tauto.
Qed.
(** ** Dominant roots *)
Lemma high_ok : exists l, high_roots s = Ok l /\ StronglySorted gt l /\ forall a, In a l <-> (np <= a < 2 * np)%nat /\ forall i, (i < n)%nat -> 0 <= pair (rt a) i.
Proof.
  unfold high_roots. apply gives_none.
  apply (gives_upto0 (fun k l => StronglySorted gt l /\ forall a, In a l <-> (2 * np - k <= a < 2 * np)%nat /\ forall i, (i < n)%nat -> 0 <= pair (rt a) i)).
  - split; [constructor|]. intros a. split; [intros []|]. intros [H _]. lia.
  - intros k l Hk [So A]. destruct (descent_set_ok n C s n1 Y k ltac:(lia)) as (d & e & -> & _ & Id & _ & D & _). cbn [bind gives]. destruct (rt_minus n s n1 k ltac:(lia)) as (Hm & Em & _).
    assert (T : d = 0 <-> forall i, (i < n)%nat -> 0 <= pair (rt (minus_nr np k)) i).
    { rewrite Em. split.
      - intros -> i Hi. rewrite pair_opp. destruct (Z_lt_le_dec 0 (pair (rt k) i)) as [Q|Q]; [|lia]. pose proof (proj2 (D i) (conj Hi Q)) as M. rewrite mem_0 in M. discriminate.
      - intros H. apply mem_all_false.
        + exact Id.
        + intros i. destruct (mem d i) eqn:M; [|reflexivity]. apply D in M. destruct M as [Hi P]. specialize (H i Hi). rewrite pair_opp in H. lia. }
    assert (New : forall a, (2 * np - S k <= a < 2 * np)%nat <-> (2 * np - k <= a < 2 * np \/ a = minus_nr np k)%nat) by (intros a; unfold minus_nr; lia).
    destruct (Z.eqb_spec d 0) as [Ed|Ed].
    + split.
      * apply sorted_snoc; [exact So|]. intros x I. apply A in I. unfold minus_nr. lia.
      * intros a. rewrite in_app_iff, A, New. cbn [In]. pose proof (proj1 T Ed) as T1. split.
        { intros [[P1 P2]|[<-|[]]]; [split; [left; exact P1|exact P2]|split; [right; reflexivity|exact T1]]. }
        { intros [[P1| ->] P2]; [left; split; assumption|right; left; reflexivity]. }
    + split; [exact So|]. intros a. rewrite A, New. split; [intros [P1 P2]; split; [left; exact P1|exact P2]|]. intros [[P1| ->] P2]; [split; assumption|]. destruct Ed. apply T. exact P2.
  - intros l [So A]. split; [exact So|]. intros a. rewrite A. split; intros [P Q]; (split; [lia|exact Q]).
Qed.
End Look.
