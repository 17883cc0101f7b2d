(** The constructor of root systems. *)

From Coq Require Import List Arith ZArith Bool Lia Sorted.
From Verif Require Import VecModel VecProofs RunModel RunProofs MatModel MatSpec MatRing MatLin MatProofs MatOps SizeModel BitsetSpec DynBits DynkinModel LieTypeSpec RatVecMore RootModel RootSpec RootMath RootForm RootFin RootBase RootGen RootCo RootPerm RootMake.
Import ListNotations.
Local Open Scope Z_scope.

(** ** Transposing the matrix *)
Definition turned (i j : nat) (f : nat -> nat -> Z) : nat -> nat -> Z := fun a b =>
  if ((Nat.ltb a i || Nat.ltb b i) || (Nat.eqb a i && Nat.ltb b j) || (Nat.eqb b i && Nat.ltb a j))%bool then f b a else f a b.
Definition sym_upto (n i j : nat) (f : nat -> nat -> Z) : Prop := forall a b, (a < b < n)%nat -> (a < i \/ a = i /\ b < j)%nat -> f a b = f b a.
Lemma turned_cases i j f a b : ((a < i \/ b < i \/ a = i /\ b < j \/ b = i /\ a < j)%nat /\ turned i j f a b = f b a) \/
  (~ (a < i \/ b < i \/ a = i /\ b < j \/ b = i /\ a < j)%nat /\ turned i j f a b = f a b).
Proof.
  unfold turned. destruct (Nat.ltb_spec a i); [left; split; [lia|reflexivity]|]. destruct (Nat.ltb_spec b i); [left; split; [lia|reflexivity]|]. cbn [orb].
  destruct (Nat.eqb_spec a i); destruct (Nat.ltb_spec b j); cbn [andb orb]; try (left; split; [lia|reflexivity]); destruct (Nat.eqb_spec b i); destruct (Nat.ltb_spec a j); cbn [andb];
    first [left; split; [lia|reflexivity] | right; split; [lia|reflexivity]].
Qed.
Ltac turn1 := match goal with |- context [turned ?i ?j ?f ?a ?b] => let H := fresh in let E := fresh in destruct (turned_cases i j f a b) as [[H E]|[H E]]; rewrite E end.
Ltac nbt := repeat turn1; try (exfalso; lia); try reflexivity; try (f_equal; lia).
Lemma swap_sys_ok n M f ri : is_mx M n n f -> exists M' ri', swap_sys n M ri = Ok (M', ri') /\ is_mx M' n n (flip f) /\
  ((same_C n f (flip f) /\ ri' = ri) \/ (~ same_C n f (flip f) /\ ri' = map swap_info ri)).
Proof.
  intros HM. unfold swap_sys.
  assert (Q : exists s, upto n 0 (fun i s => upto (n - S i) (S i) (fun j '(M, laced) => run x <- mget M i j; run y <- mget M j i;
      if negb (x =? y) then run M1 <- mswap M i j j i; Ok (M1, false) else Ok (M, laced)) s) (M, true) = Ok s /\
      let '(M', laced) := s in is_mx M' n n (turned n 0 f) /\ (laced = true <-> sym_upto n n 0 f)).
  { apply gives_none. apply (gives_upto0 (fun i (s : matrix Z * bool) => let '(M', laced) := s in is_mx M' n n (turned i 0 f) /\ (laced = true <-> sym_upto n i 0 f))).
    - split; [eapply is_mx_ext; [exact HM|]; intros a b Ha Hb; nbt|]. split; [intros _ a b _ H; lia|reflexivity].
    - intros i [M1 l1] Hi [H1 L1].
      eapply gives_mono.
      { apply (gives_upto (fun j (s : matrix Z * bool) => let '(M', laced) := s in is_mx M' n n (turned i j f) /\ (laced = true <-> sym_upto n i j f))).
        - split; [eapply is_mx_ext; [exact H1|]; intros a b Ha Hb; nbt|]. rewrite L1. split; intros S a b Hab Q; apply S; lia.
        - intros j [M2 l2] Hj [H2 L2]. rewrite (mget_ok _ _ _ _ i j H2) by lia. cbn [bind]. rewrite (mget_ok _ _ _ _ j i H2) by lia. cbn [bind].
          assert (E1 : turned i j f i j = f i j) by nbt. assert (E2 : turned i j f j i = f j i) by nbt. rewrite E1, E2.
          destruct (Z.eqb_spec (f i j) (f j i)) as [E|N]; cbn [negb].
          + cbn [gives]. split.
            * eapply is_mx_ext; [exact H2|]. intros a b Ha Hb. nbt.
            destruct (Nat.eq_dec a i) as [->|]; [replace b with j by lia; exact E|replace a with j by lia; replace b with i by lia; symmetry; exact E].
            * rewrite L2. split; intros S a b Hab Q; [|apply S; lia]. destruct (Nat.eq_dec a i) as [->|Na]; [|apply S; lia]. destruct (Nat.eq_dec b j) as [->|Nb]; [exact E|apply S; lia].
          + eapply gives_bind; [apply (mswap_ok _ _ _ _ i j j i H2); lia|]. intros M3 H3. cbn [gives]. split.
            * eapply is_mx_ext; [exact H3|]. intros a b Ha Hb. unfold upd. rewrite E1, E2. destruct (Nat.eqb_spec a j); destruct (Nat.eqb_spec b i); destruct (Nat.eqb_spec a i); destruct (Nat.eqb_spec b j); cbn [andb]; subst; nbt.
            * split; [discriminate|]. intros S. exfalso. apply N. apply S; lia. }
      intros [M2 l2] [H2 L2]. replace (S i + (n - S i))%nat with n in H2, L2 by lia. split.
      + eapply is_mx_ext; [exact H2|]. intros a b Ha Hb. nbt.
      + rewrite L2. split; intros S a b Hab Q; apply S; lia.
    - intros [M2 l2] Q. exact Q. }
  destruct Q as ([M' laced] & -> & H & L). cbn [bind]. exists M'. eexists. split; [reflexivity|]. split; [eapply is_mx_ext; [exact H|]; intros a b Ha Hb; unfold flip; nbt|].
  assert (E : sym_upto n n 0 f <-> same_C n f (flip f)).
  { split; [|intros S a b Hab _; apply S; lia]. intros S a b Ha Hb. unfold flip. destruct (lt_eq_lt_dec a b) as [[Q|<-]|Q]; [apply S; lia|reflexivity|symmetry; apply S; lia]. }
  rewrite E in L. destruct laced; [left; split; [apply L; reflexivity|reflexivity]|]. right. split; [|reflexivity]. intros S. apply L in S. discriminate.
Qed.

(** ** Lists that differ in the permutations only *)
Definition all_like (ri rs : list root_info) : Prop := length rs = length ri /\ forall a x, get ri a = Some x -> exists y, get rs a = Some y /\ like x y.
Lemma like_back ri rs a y : all_like ri rs -> get rs a = Some y -> exists x, get ri a = Some x /\ like x y.
Proof.
  intros [L A] G. destruct (get_some ri a) as [x Gx]; [rewrite <- L; apply (get_lt _ _ _ G)|]. exists x. split; [exact Gx|]. destruct (A a x Gx) as (y' & Gy & Q). congruence.
Qed.
Lemma like_nv_root ri rs a : all_like ri rs -> nv r_root rs a = nv r_root ri a.
Proof.
  intros Q. pose proof Q as [L A]. unfold nv. rewrite L. destruct (get ri (abs_nr (length ri) a)) as [x|] eqn:G.
  - destruct (A _ x G) as (y & -> & (-> & _)). reflexivity.
  - destruct (get rs (abs_nr (length ri) a)) as [y|] eqn:Gy; [|reflexivity]. destruct (like_back ri rs _ y Q Gy) as (x & Gx & _). congruence.
Qed.
Lemma like_swap ri rs : all_like ri rs -> all_like (map swap_info ri) (map swap_info rs).
Proof.
  intros Q. pose proof Q as [L A]. split; [rewrite !map_length; exact L|]. intros a x G. rewrite get_map in G. destruct (get ri a) as [x0|] eqn:G0; [|discriminate].
  injection G as <-. destruct (A a x0 G0) as (y & Gy & (E1 & E2 & E3 & E4)). exists (swap_info y). split; [apply get_map_some; exact Gy|]. split; [exact E2|]. split; [exact E1|]. split; [exact E3|exact E4].
Qed.
Lemma like_acts n C ri rs p r c : all_like ri rs -> acts n C ri p r c -> acts n C rs p r c.
Proof.
  intros Q [L A]. pose proof (proj1 Q) as Lq. split; [lia|]. rewrite Lq. intros b Hb. destruct (A b Hb) as (b' & G & Hb' & E). exists b'. rewrite !(like_nv_root ri rs) by exact Q.
  split; [exact G|split; [exact Hb'|exact E]].
Qed.
Lemma like_bot n C ri rs a B : all_like ri rs -> bot_ok n C ri a B -> bot_ok n C rs a B.
Proof.
  intros Q [L A]. pose proof (proj1 Q) as Lq. split; [lia|]. rewrite Lq. intros b Hb. rewrite !(like_nv_root ri rs) by exact Q. apply A. exact Hb.
Qed.
Lemma like_table n C link ri rs : all_like ri rs -> table n C link ri -> table n C link rs.
Proof.
  intros Q T. pose proof Q as [L A]. constructor.
  - intros a y G. destruct (like_back ri rs a y Q G) as (x & Gx & (-> & -> & _)). apply (t_rc _ _ _ _ T a x Gx).
  - intros v U. destruct (t_all _ _ _ _ T v U) as (a & x & Gx & <-). destruct (A a x Gx) as (y & Gy & (E & _)). exists a, y. split; assumption.
  - intros a b x y Ga Gb E. destruct (like_back ri rs a x Q Ga) as (x' & Gx & (Ex & _)). destruct (like_back ri rs b y Q Gb) as (y' & Gy & (Ey & _)).
    apply (t_inj _ _ _ _ T a b x' y' Gx Gy). congruence.
  - intros i Hi. destruct (t_simple _ _ _ _ T i Hi) as (x & Gx & Ex). destruct (A i x Gx) as (y & Gy & (Ey & _)). exists y. split; [exact Gy|congruence].
  - intros a i y G Hi. destruct (like_back ri rs a y Q G) as (x & Gx & (Ex & _)). destruct (t_link _ _ _ _ T a i x Gx Hi) as (b & Lb & P). exists b. split; [exact Lb|].
    destruct P as [P|(N & z & Gz & Ez)]; [left; exact P|]. right. split; [exact N|]. destruct (A b z Gz) as (w & Gw & (Ew & _)). exists w. split; [exact Gw|congruence].
  - intros a i y b G. destruct (like_back ri rs a y Q G) as (x & Gx & (_ & _ & -> & _)). apply (t_down _ _ _ _ T a i x b Gx).
  - intros a y G. destruct (like_back ri rs a y Q G) as (x & Gx & (-> & _ & -> & ->)). apply (t_bits _ _ _ _ T a x Gx).
Qed.
Lemma like_map proj ri rs : all_like ri rs -> (proj = r_root \/ proj = r_coroot) -> map proj rs = map proj ri.
Proof.
  intros Q P. apply vec_ext_all. intros k. rewrite !get_map. destruct (get rs k) as [y|] eqn:G.
  - destruct (like_back ri rs k y Q G) as (x & -> & (E1 & E2 & _)). destruct P as [->| ->]; congruence.
  - destruct (get ri k) as [x|] eqn:Gx; [|reflexivity]. destruct (proj2 Q k x Gx) as (y & Gy & _). congruence.
Qed.

(** ** Root systems *)
Record system (n : nat) (C : nat -> nat -> Z) (s : rootsys) : Prop := {
  y_rank : s_rank s = n;
  y_C : is_mx (s_Cmat s) n n C;
  y_table : exists link, table n C link (s_ri s);
  y_perm : forall a x, get (s_ri s) a = Some x -> acts n C (s_ri s) (r_perm x) (r_root x) (r_coroot x);
  y_bots : length (s_bot s) = (2 * length (s_ri s))%nat /\ length (s_cobot s) = (2 * length (s_ri s))%nat;
  y_bot : forall a, (a < 2 * length (s_ri s))%nat -> exists B, get (s_bot s) a = Some B /\ bot_ok n C (s_ri s) a B;
  y_cobot : forall a, (a < 2 * length (s_ri s))%nat -> exists B, get (s_cobot s) a = Some B /\ bot_ok n (flip C) (map swap_info (s_ri s)) a B }.

Lemma slice_ok (f : matrix Z -> nat -> res (list Z)) M n (h : nat -> nat -> Z) : (forall i, (i < n)%nat -> gives (f M i) (fun v => is_vec v n (h i)) none) ->
  exists l, slice f M n = Ok l /\ length l = n /\ forall i s, get l i = Some s -> length s = n /\ forall j, (j < n)%nat -> co s j = h i j.
Proof.
  intros H. unfold slice. apply gives_none.
  apply (gives_upto0 (fun k l => length l = k /\ forall i s, get l i = Some s -> length s = n /\ forall j, (j < n)%nat -> co s j = h i j)).
  - split; [reflexivity|]. intros i s G. destruct i; discriminate.
  - intros k l Hk [L A]. eapply gives_bind; [apply (H k Hk)|]. intros v [Lv V]. cbn [gives]. split; [rewrite app_length; cbn; lia|].
    intros i s G. rewrite get_app, L in G. destruct (Nat.eqb_spec i k) as [->|N]; [|apply (A i s G)]. injection G as <-. split; [exact Lv|].
    intros j Hj. specialize (V j Hj). rewrite get_co in V by lia. congruence.
  - intros l Q. exact Q.
Qed.
Lemma entries_small n C : good n C -> forall i j, (i < n)%nat -> (j < n)%nat -> byte_range (C i j).
Proof.
  intros gd i j Hi Hj. pose proof (proj1 gd) as (C1 & C2 & C3). unfold byte_range. destruct (Nat.eq_dec i j) as [->|N]; [rewrite C1 by exact Hj; lia|].
  pose proof (small n C gd i j Hi Hj N) as S. pose proof (C2 i j Hi Hj N). pose proof (C2 j i Hj Hi ltac:(congruence)). pose proof (C3 j i Hj Hi). nia.
Qed.
Definition order (pc : bool) : root_info -> list Z := if pc then r_coroot else r_root.
Lemma swap_twice ri : map swap_info (map swap_info ri) = ri.
Proof. rewrite map_map. rewrite <- (map_id ri) at 2. apply map_ext. intros [a b c d x]. reflexivity. Qed.
(** the constructor up to the permutations *)
Lemma build_ok n f c pc : (1 <= n <= 32)%nat -> good n f -> good n (flip f) -> is_mx c n n f ->
  exists s link ri, root_system c pc = Ok s /\ table n f link ri /\ StronglySorted before (map (order pc) ri) /\
    make_perms n link ri = Ok (s_ri s, s_bot s, s_cobot s) /\ s_rank s = n /\ s_prefer s = pc /\ is_mx (s_Cmat s) n n f.
Proof.
  intros n1 gd gd' HM. unfold root_system. rewrite (is_mx_rows _ _ _ _ HM), (is_mx_cols _ _ _ _ HM).
  assert (HM0 : is_mx (mk_mat n n (map s8 (mdata c))) n n f).
  { destruct HM as (_ & _ & L & G). split; [reflexivity|]. split; [reflexivity|]. cbn [mdata]. split; [rewrite map_length; exact L|].
    intros i j Hi Hj. rewrite get_map, (G i j Hi Hj). rewrite s8_id by (apply (entries_small n f gd); assumption). reflexivity. }
  set (M := mk_mat n n (map s8 (mdata c))) in *. destruct (Nat.eqb_spec n 0) as [E|_]; [lia|].
  assert (exists lv, first_levels n = Ok lv) as [lv Elv].
  { destruct (slice_ok (mat_column 0) M n (fun j i => f i j)) as (col & _ & Lcol & Hcol); [intros i Hi; apply (column_ok 0 _ _ _ _ i HM0 Hi)|].
    destruct (generate_ok n f n1 gd col Lcol Hcol) as (lv & _ & E & _). exists lv. exact E. }
  rewrite Elv. cbn [bind].
  destruct pc.
  - destruct (swap_sys_ok n M f [] HM0) as (M1 & r1 & -> & H1 & _). cbn [bind].
    destruct (slice_ok mat_row M1 n (flip f)) as (row & -> & Lrow & Hrow); [intros i Hi; apply (row_ok _ _ _ _ i H1 Hi)|]. cbn [bind].
    destruct (slice_ok (mat_column 0) M1 n (fun j i => flip f i j)) as (col & -> & Lcol & Hcol); [intros i Hi; apply (column_ok 0 _ _ _ _ i H1 Hi)|]. cbn [bind].
    destruct (generate_ok n (flip f) n1 gd' col Lcol Hcol) as (lv' & g & Elv' & Eg & Gg). rewrite Elv in Elv'. injection Elv' as <-. rewrite Eg. cbn [bind].
    assert (gd2 : good n (flip (flip f))) by exact gd.
    destruct (coroots_table n (flip f) n1 gd' gd2 row Lrow Hrow g Gg) as (ri & Eri & Tr & So). rewrite Eri. cbn [bind].
    destruct (swap_sys_ok n M1 (flip f) ri H1) as (M2 & ri2 & -> & H2 & Q). cbn [bind]. rewrite flip_flip in H2.
    assert (T2 : table n f (g_link g) ri2 /\ StronglySorted before (map r_coroot ri2)).
    { destruct Q as [[S ->]|[_ ->]].
      - split; [apply (table_same n (flip f) f); [exact S|exact Tr]|]. replace (map r_coroot ri) with (map r_root ri); [exact So|].
        apply map_ext_in. intros x I. destruct (In_get _ _ I) as [a G]. apply (rc_laced n (flip f)); [exact S|]. apply (t_rc _ _ _ _ Tr a x G).
      - split; [apply (table_swap n (flip f) n1 gd' gd2); exact Tr|]. rewrite map_map. exact So. }
    destruct T2 as [T2 S2]. destruct (make_perms_ok n f (g_link g) ri2 n1 gd gd' T2) as (rs & bot & cobot & E & _). rewrite E. cbn [bind].
    eexists. exists (g_link g), ri2. split; [reflexivity|]. split; [exact T2|]. split; [exact S2|]. cbn [s_ri s_bot s_cobot s_rank s_prefer s_Cmat]. split; [exact E|]. split; [reflexivity|]. split; [reflexivity|exact H2].
  - cbn [bind].
    destruct (slice_ok mat_row M n f) as (row & -> & Lrow & Hrow); [intros i Hi; apply (row_ok _ _ _ _ i HM0 Hi)|]. cbn [bind].
    destruct (slice_ok (mat_column 0) M n (fun j i => f i j)) as (col & -> & Lcol & Hcol); [intros i Hi; apply (column_ok 0 _ _ _ _ i HM0 Hi)|]. cbn [bind].
    destruct (generate_ok n f n1 gd col Lcol Hcol) as (lv' & g & Elv' & Eg & Gg). rewrite Elv in Elv'. injection Elv' as <-. rewrite Eg. cbn [bind].
    destruct (coroots_table n f n1 gd gd' row Lrow Hrow g Gg) as (ri & Eri & Tr & So). rewrite Eri. cbn [bind].
    destruct (make_perms_ok n f (g_link g) ri n1 gd gd' Tr) as (rs & bot & cobot & E & _). rewrite E. cbn [bind].
    eexists. exists (g_link g), ri. split; [reflexivity|]. split; [exact Tr|]. split; [exact So|]. cbn [s_ri s_bot s_cobot s_rank s_prefer s_Cmat]. split; [exact E|]. split; [reflexivity|]. split; [reflexivity|exact HM0].
Qed.
Theorem root_system_ok n f c pc : (n <= 32)%nat -> finite_type n f -> is_mx c n n f ->
  exists s, root_system c pc = Ok s /\ system n f s /\ s_prefer s = pc /\ StronglySorted before (map (order pc) (s_ri s)).
Proof.
  intros n1 ft HM. pose proof (finite_good n f ft) as gd. pose proof (finite_good n _ (finite_flip n f ft)) as gd'.
  destruct (Nat.eq_dec n 0) as [->|N0].
  { unfold root_system. rewrite (is_mx_rows _ _ _ _ HM). cbn [Nat.eqb]. eexists. split; [reflexivity|]. cbn [s_ri s_prefer]. split; [|split; [reflexivity|constructor]].
    constructor; cbn [s_rank s_Cmat s_ri s_bot s_cobot].
    - reflexivity.
    - destruct HM as (R & Cc & L & G). rewrite ?R, ?Cc. split; [reflexivity|]. split; [reflexivity|]. cbn [mdata]. split; [rewrite map_length; exact L|]. intros; lia.
    - exists []. assert (U0 : forall v, ~ up 0 f v) by (intros v U; induction U; lia).
      constructor; try (intros a; intros; destruct a; discriminate).
      + intros v U. destruct (U0 v U).
      + intros i Hi. lia.
    - intros a x G. destruct a; discriminate.
    - split; reflexivity.
    - cbn. intros; lia.
    - cbn. intros; lia. }
  destruct (build_ok n f c pc ltac:(lia) gd gd' HM) as (s & link & ri & Es & T & So & Em & Er & Ep & EC).
  destruct (make_perms_ok n f link ri ltac:(lia) gd gd' T) as (rs & bot & cobot & E & L1 & L2 & L3 & A & B). rewrite Em in E. injection E as <- <- <-.
  assert (LK : all_like ri (s_ri s)) by (split; [exact L1|]; intros a x G; destruct (A a x G) as (y & Gy & Ly & _); exists y; split; assumption).
  exists s. split; [exact Es|]. split; [|split; [exact Ep|]].
  - constructor.
    + exact Er.
    + exact EC.
    + exists link. apply (like_table n f link ri); assumption.
    + intros a y G. destruct (like_back ri _ a y LK G) as (x & Gx & (Ex & Ec & _)). destruct (A a x Gx) as (y' & Gy & _ & P). rewrite G in Gy. injection Gy as <-.
      rewrite Ex, Ec. apply (like_acts n f ri); assumption.
    + rewrite L1. split; assumption.
    + rewrite L1. intros a Ha. destruct (proj1 (B a Ha)) as (B0 & G & Q). exists B0. split; [exact G|]. apply (like_bot n f ri); assumption.
    + rewrite L1. intros a Ha. destruct (proj2 (B a Ha)) as (B0 & G & Q). exists B0. split; [exact G|]. apply (like_bot n (flip f) (map swap_info ri)); [apply like_swap; exact LK|exact Q].
  - rewrite (like_map (order pc) ri); [exact So|exact LK|destruct pc; [right|left]; reflexivity].
Qed.
(** ** The dual system *)
Theorem dual_system_ok n f s : (n <= 32)%nat -> finite_type n f -> system n f s -> exists s', dual_system s = Ok s' /\ system n (flip f) s' /\ s_prefer s' = negb (s_prefer s) /\
  map r_root (s_ri s') = map r_coroot (s_ri s) /\ map r_coroot (s_ri s') = map r_root (s_ri s) /\ map r_perm (s_ri s') = map r_perm (s_ri s).
Proof.
  intros n1 ft Y. pose proof (finite_good n f ft) as gd. pose proof (finite_good n _ (finite_flip n f ft)) as gd'. unfold dual_system. rewrite (y_rank _ _ _ Y).
  destruct (swap_sys_ok n (s_Cmat s) f (s_ri s) (y_C _ _ _ Y)) as (M & ri & -> & HM & Q). cbn [bind]. eexists. split; [reflexivity|]. cbn [s_prefer s_ri].
  destruct (y_table _ _ _ Y) as [link T].
  assert (N0 : (1 <= n <= 32)%nat \/ s_ri s = []).
  { destruct (Nat.eq_dec n 0) as [->|N]; [right|left; lia]. destruct (s_ri s) as [|x l] eqn:E; [reflexivity|]. exfalso.
    pose proof (proj2 (t_rc _ _ _ _ T 0%nat x eq_refl)) as U. assert (U0 : forall v, ~ up 0 f v) by (intros v V; induction V; lia). exact (U0 _ U). }
  assert (Laced : same_C n f (flip f) -> map swap_info (s_ri s) = s_ri s).
  { intros S. rewrite <- (map_id (s_ri s)) at 2. apply map_ext_in. intros x I. destruct (In_get _ _ I) as [a G]. pose proof (rc_laced n f _ _ S (proj1 (t_rc _ _ _ _ T a x G))) as E.
    destruct x. cbn in *. rewrite E. reflexivity. }
  assert (Eri : ri = map swap_info (s_ri s)) by (destruct Q as [[S ->]|[_ ->]]; [symmetry; apply Laced; exact S|reflexivity]). clear Q.
  split; [|split; [reflexivity|]]; [|rewrite Eri, !map_map; split; [reflexivity|split; reflexivity]].
  constructor; cbn [s_rank s_Cmat s_ri s_bot s_cobot].
  - reflexivity.
  - exact HM.
  - exists link. rewrite Eri. destruct N0 as [N0|N0]; [apply (table_swap n f N0 gd gd'); exact T|]. rewrite N0. cbn. rewrite N0 in T.
    assert (n = 0)%nat by (destruct n as [|m]; [reflexivity|]; destruct (t_simple _ _ _ _ T 0%nat ltac:(lia)) as (x & G & _); discriminate). subst n.
    assert (U0 : forall v, ~ up 0 (flip f) v) by (intros v U; induction U; lia).
    constructor; try (intros a; intros; destruct a; discriminate); [intros v U; destruct (U0 v U)|intros i Hi; lia].
  - rewrite Eri. intros a x G. rewrite get_map in G. destruct (get (s_ri s) a) as [x0|] eqn:G0; [|discriminate]. injection G as <-. cbn.
    destruct N0 as [N0|N0]; [|rewrite N0 in G0; destruct a; discriminate].
    apply (acts_co n f link (s_ri s) gd T); [apply (t_rc _ _ _ _ T a x0 G0)|apply (y_perm _ _ _ Y a x0 G0)].
  - rewrite Eri, map_length. destruct (y_bots _ _ _ Y). split; assumption.
  - rewrite Eri, map_length. apply (y_cobot _ _ _ Y).
  - rewrite Eri, map_length, swap_twice. apply (y_bot _ _ _ Y).
Qed.
