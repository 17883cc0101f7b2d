(** The generation of the positive roots, level by level. *)

From Coq Require Import List Arith ZArith Bool Lia Sorted.
From Verif Require Import VecModel VecProofs RunModel RunProofs MatModel MatSpec MatRing MatLin SizeModel BitsetSpec DynBits DynkinModel LieTypeSpec RootModel RootSpec RootMath RootForm RootFin RootBase.
Import ListNotations.
Local Open Scope Z_scope.

(** ** Updates *)
Definition lk (g : gen) (a i : nat) : option (option nat) := match get (g_link g) a with Some row => get row i | None => None end.
Definition rows_ok (n : nat) (g : gen) : Prop := forall a row, get (g_link g) a = Some row -> length row = n.
Lemma set_link_ok n g a i b : rows_ok n g -> (a < length (g_link g))%nat -> (i < n)%nat ->
  exists g', set_link g a i b = Ok g' /\ g_levels g' = g_levels g /\ g_ri g' = g_ri g /\ g_first g' = g_first g /\
    length (g_link g') = length (g_link g) /\ rows_ok n g' /\
    forall a' i', lk g' a' i' = if Nat.eqb a' a && Nat.eqb i' i then Some (Some b) else lk g a' i'.
Proof.
  intros R Ha Hi. unfold set_link. destruct (get_some (g_link g) a Ha) as [row G]. rewrite (vget_ok _ _ _ G). cbn [bind].
  destruct (vput_ok row i (Some b) ltac:(rewrite (R a row G); exact Hi)) as (row1 & -> & L1 & G1). cbn [bind].
  destruct (vput_ok (g_link g) a row1 Ha) as (lk1 & -> & L2 & G2). cbn [bind].
  eexists. split; [reflexivity|]. cbn [g_levels g_ri g_first g_link]. split; [reflexivity|]. split; [reflexivity|]. split; [reflexivity|].
  split; [exact L2|]. split.
  - intros a' row' G'. cbn [g_link] in G'. rewrite G2 in G'. destruct (Nat.eqb a' a); [|apply (R a' row' G')].
    injection G' as <-. rewrite L1. apply (R a row G).
  - intros a' i'. unfold lk. cbn [g_link]. rewrite G2. destruct (Nat.eqb_spec a' a) as [->|N]; cbn [andb]; [|reflexivity].
    rewrite G1, G. destruct (Nat.eqb i' i); reflexivity.
Qed.
Lemma set_info_ok g a x f y : get (g_ri g) a = Some x -> f x = Ok y ->
  exists g', set_info g a f = Ok g' /\ g_levels g' = g_levels g /\ g_link g' = g_link g /\ g_first g' = g_first g /\
    forall a', get (g_ri g') a' = if Nat.eqb a' a then Some y else get (g_ri g) a'.
Proof.
  intros G F. unfold set_info. rewrite (vget_ok _ _ _ G). cbn [bind]. rewrite F. cbn [bind].
  destruct (vput_ok (g_ri g) a y (get_lt _ _ _ G)) as (ri1 & -> & L & G1). cbn [bind].
  eexists. split; [reflexivity|]. cbn [g_levels g_ri g_first g_link]. split; [reflexivity|]. split; [reflexivity|]. split; [reflexivity|]. exact G1.
Qed.

Lemma sorted_get {A} (R : A -> A -> Prop) l : StronglySorted R l -> forall a b u v, (a < b)%nat -> get l a = Some u -> get l b = Some v -> R u v.
Proof.
  induction 1 as [|x l S IH F]; intros a b u v L Ga Gb; [destruct a; discriminate|]. destruct b as [|b]; [lia|]. cbn in Gb.
  destruct a as [|a].
  - cbn in Ga. injection Ga as <-. rewrite Forall_forall in F. apply F. apply (get_In _ _ _ Gb).
  - apply (IH a b u v); [lia|exact Ga|exact Gb].
Qed.
Lemma sorted_snoc {A} (R : A -> A -> Prop) l x : StronglySorted R l -> (forall y, In y l -> R y x) -> StronglySorted R (l ++ [x]).
Proof.
  induction 1 as [|y l S IH F]; intros H; cbn; [repeat constructor|]. constructor; [apply IH; intros; apply H; right; assumption|].
  apply Forall_app. split; [exact F|]. constructor; [apply H; left; reflexivity|constructor].
Qed.

Definition before (u v : list Z) : Prop := height u < height v \/ (height u = height v /\ rlt u v).
Lemma before_irrefl u : ~ before u u.
Proof. intros [H|[_ H]]; [lia|]. unfold rlt in H. rewrite root_lt_irrefl in H. discriminate. Qed.

Section Gen.
Variables (n : nat) (C : nat -> nat -> Z).
Hypothesis n1 : (1 <= n <= 32)%nat.
Hypothesis gd : good n C.
Notation pair := (pairing n C).
Notation sr := (sreflect n C).
Notation up := (up n C).
Let cart : Cartan_like n C := proj1 gd.
Lemma small : forall i j, (i < n)%nat -> (j < n)%nat -> i <> j -> C i j * C j i <= 3.
Proof. destruct (proj1 (proj2 gd)) as (d & D1 & D2 & D3). exact (small_products n C d cart D1 D2 D3). Qed.
Lemma up_bound v : up v -> height v < 4 * Z.of_nat n - 1.
Proof. intros U. apply (proj2 (proj2 gd)). apply up_root. exact U. Qed.
Lemma pair_small v i : up v -> (i < n)%nat -> -3 <= pair v i <= 3.
Proof. destruct (proj1 (proj2 gd)) as (d & D1 & D2 & D3). apply (pair_bound n C d cart D1 D2 D3). Qed.
Lemma no_gap m v : up v -> Z.of_nat m < height v -> (1 <= m)%nat -> exists u, up u /\ height u = Z.of_nat m.
Proof. destruct (proj1 (proj2 gd)) as (d & D1 & D2 & D3). apply (up_gap n C d cart D1 D2 D3). Qed.
Lemma up_co v k : up v -> 0 <= co v k <= 126.
Proof.
  intros U. pose proof (up_nonneg n C v U) as N. pose proof (up_length n C v U) as L. pose proof (up_bound v U) as B. split; [apply N|].
  destruct (le_lt_dec n k) as [H|H]; [rewrite co_over by lia; lia|].
  rewrite height_zsum, L in B. pose proof (zsum_ge n (co v) k H (fun j _ => N j)). cbn beta in *. lia.
Qed.

(** the reflected vector as the code makes it *)
Lemma sr_vput v i : up v -> (i < n)%nat -> up (sr i v) -> vput v i (s8 (co v i - pair v i)) = Ok (sr i v).
Proof.
  intros U Hi U'. pose proof (up_length n C v U) as L. pose proof (up_co (sr i v) i U') as B. rewrite co_sr, Nat.eqb_refl in B by lia.
  rewrite s8_id by (unfold byte_range; lia). unfold sreflect. replace (co v i - pair v i) with (co v i + - pair v i) by lia. apply vput_bump. lia.
Qed.
Lemma height_sr v i : up v -> (i < n)%nat -> height (sr i v) = height v - pair v i.
Proof. intros U Hi. unfold sreflect. rewrite height_bump by (rewrite (up_length n C v U); exact Hi). reflexivity. Qed.

Variable cor : list (list Z).
Hypothesis corn : length cor = n.
Hypothesis cori : forall i s, get cor i = Some s -> length s = n /\ forall j, (j < n)%nat -> co s j = C j i.
Lemma dot_pair v i s : up v -> (i < n)%nat -> get cor i = Some s -> dot8 0 v s = Ok (pair v i).
Proof.
  intros U Hi G. destruct (cori i s G) as [L E]. pose proof (up_length n C v U) as Lv. change 0 with (s8 0) at 1.
  rewrite dot8_ok by lia. f_equal. rewrite ldot_zsum, Lv by lia. cbn.
  rewrite (zsum_ext n _ (fun j => co v j * C j i)) by (intros j Hj; rewrite E by exact Hj; reflexivity).
  fold (pairing n C v i). apply s8_id. pose proof (pair_small v i U Hi) as P. unfold byte_range. lia.
Qed.
(** ** The invariant *)
Record static (l : nat) (Rs : list (list Z)) (first : list nat) : Prop := {
  st_up : forall v, In v Rs -> up v /\ height v <= Z.of_nat l;
  st_sorted : StronglySorted before Rs;
  st_all : forall v, up v -> height v < Z.of_nat l -> In v Rs;
  st_fn : length first = S l;
  st_first : forall j, (j <= l)%nat -> exists f, get first j = Some f /\ (f <= length Rs)%nat /\
    forall a v, get Rs a = Some v -> ((f <= a)%nat <-> Z.of_nat j <= height v) }.
Definition handled (cur i0 a i : nat) : Prop := (a < cur \/ (a = cur /\ i < i0))%nat.
Record dyn (l : nat) (Rs : list (list Z)) (cur i0 : nat) (g : gen) : Prop := {
  d_roots : map r_root (g_ri g) = Rs;
  d_ln : length (g_levels g) = (4 * n)%nat;
  d_lv : forall m s, (l < m)%nat -> get (g_levels g) m = Some s -> StronglySorted rlt s /\
    forall v, In v s <-> exists a i u, handled cur i0 a i /\ (i < n)%nat /\ get Rs a = Some u /\ pair u i < 0 /\ v = sr i u /\ height v = Z.of_nat m;
  d_kn : length (g_link g) = length Rs;
  d_rows : rows_ok n g;
  d_some : forall a i b u, lk g a i = Some (Some b) -> get Rs a = Some u -> (u = basis n i /\ b = a) \/ get Rs b = Some (sr i u);
  d_none : forall a i u, lk g a i = Some None -> get Rs a = Some u -> handled cur i0 a i ->
    pair u i < 0 /\ forall b, get Rs b = Some (sr i u) -> ~ handled cur i0 b i;
  d_bits : forall a x, get (g_ri g) a = Some x -> is32 (r_desc x) /\ is32 (r_asc x) /\
    forall i, (mem (r_desc x) i = true <-> handled cur i0 a i /\ (i < n)%nat /\ 0 < pair (r_root x) i) /\
              (mem (r_asc x) i = true <-> handled cur i0 a i /\ (i < n)%nat /\ pair (r_root x) i < 0) }.

Lemma st_inj l Rs first a b v : static l Rs first -> get Rs a = Some v -> get Rs b = Some v -> a = b.
Proof.
  intros S Ga Gb. destruct (lt_eq_lt_dec a b) as [[L|E]|L]; [|exact E|].
  - exfalso. apply (before_irrefl v). apply (sorted_get _ _ (st_sorted _ _ _ S) a b); assumption.
  - exfalso. apply (before_irrefl v). apply (sorted_get _ _ (st_sorted _ _ _ S) b a); assumption.
Qed.
Lemma handled_S cur i0 a i : handled cur (S i0) a i <-> handled cur i0 a i \/ (a = cur /\ i = i0).
Proof. unfold handled. lia. Qed.

Section Coord.
Variables (l cur : nat) (Rs : list (list Z)) (first : list nat) (alpha : list Z) (i : nat).
Hypothesis st : static l Rs first.
Hypothesis last : length Rs = S cur.
Hypothesis Gcur : get Rs cur = Some alpha.
Hypothesis Hl : height alpha = Z.of_nat l.
Hypothesis Hi : (i < n)%nat.
Let U : up alpha := proj1 (st_up _ _ _ st alpha (get_In _ _ _ Gcur)).
Lemma Lalpha : length alpha = n. Proof. exact (up_length n C alpha U). Qed.
Lemma get_ri g a x : dyn l Rs cur i g -> get (g_ri g) a = Some x -> get Rs a = Some (r_root x).
Proof. intros D G. rewrite <- (d_roots _ _ _ _ _ D). apply get_map_some. exact G. Qed.
Lemma ri_at g a u : dyn l Rs cur i g -> get Rs a = Some u -> exists x, get (g_ri g) a = Some x /\ r_root x = u.
Proof.
  intros D G. rewrite <- (d_roots _ _ _ _ _ D), get_map in G. destruct (get (g_ri g) a) as [x|]; [|discriminate]. exists x. split; [reflexivity|congruence].
Qed.
Lemma map_root_same (ri ri' : list root_info) a y : (forall a', get ri' a' = if Nat.eqb a' a then Some y else get ri a') ->
  (exists x, get ri a = Some x /\ r_root y = r_root x) -> map r_root ri' = map r_root ri.
Proof.
  intros H (x & G & E). apply vec_ext_all. intros k. rewrite !get_map, H. destruct (Nat.eqb_spec k a) as [->|N]; [|reflexivity]. rewrite G, E. reflexivity.
Qed.
(** setting the bit for a descent or an ascent; nothing is claimed yet about the link *)
Lemma link_done g g' b : dyn l Rs cur i g -> (forall a x, get (g_ri g') a = Some x -> is32 (r_desc x) /\ is32 (r_asc x) /\
    forall i', (mem (r_desc x) i' = true <-> handled cur (S i) a i' /\ (i' < n)%nat /\ 0 < pair (r_root x) i') /\
              (mem (r_asc x) i' = true <-> handled cur (S i) a i' /\ (i' < n)%nat /\ pair (r_root x) i' < 0)) ->
  map r_root (g_ri g') = Rs -> length (g_link g') = length Rs -> rows_ok n g' -> g_levels g' = g_levels g -> 0 <= pair alpha i ->
  ((alpha = basis n i /\ b = cur) \/ get Rs b = Some (sr i alpha)) ->
  (forall a' i', lk g' a' i' = if (Nat.eqb a' cur && Nat.eqb i' i) then Some (Some b) else if Nat.eqb a' b && Nat.eqb i' i then Some (Some cur) else lk g a' i') ->
  dyn l Rs cur (S i) g'.
Proof.
  intros D B Rt Kn Ro Lv P T K. constructor; try assumption.
  - rewrite Lv. apply (d_ln _ _ _ _ _ D).
  - intros m s Hm. rewrite Lv. intros G. destruct (d_lv _ _ _ _ _ D m s Hm G) as [S1 S2]. split; [exact S1|]. intros v. rewrite S2. split.
    + intros (a & i' & u & Q). exists a, i', u. rewrite handled_S. tauto.
    + intros (a & i' & u & Q & Hn & Ga & Pn & Q2). rewrite handled_S in Q. destruct Q as [Q|[-> ->]].
      * exists a, i', u. tauto.
      * exfalso. rewrite Gcur in Ga. injection Ga as <-. lia.
  - intros a i' b' u. rewrite K. destruct (Nat.eqb_spec a cur) as [->|Na]; destruct (Nat.eqb_spec i' i) as [->|Ni]; cbn [andb]; rewrite ?andb_false_r, ?andb_true_r;
      try (intros Q G; exact (d_some _ _ _ _ _ D _ _ _ _ Q G)).
    + intros Q G. injection Q as <-. rewrite Gcur in G. injection G as <-. exact T.
    + destruct (Nat.eqb_spec a b) as [->|Nb]; [|intros Q G; exact (d_some _ _ _ _ _ D _ _ _ _ Q G)].
      intros Q G. injection Q as <-. destruct T as [[_ ->]|T]; [congruence|]. right. rewrite T in G. injection G as <-.
      rewrite (sr_sr n C cart) by (try exact Hi; exact Lalpha). exact Gcur.
  - intros a i' u Q G H. rewrite handled_S in H. rewrite K in Q.
    destruct (Nat.eqb_spec a cur) as [->|Na]; destruct (Nat.eqb_spec i' i) as [->|Ni]; cbn [andb] in Q; rewrite ?andb_false_r, ?andb_true_r in Q; try discriminate.
    + assert (H' : handled cur i cur i') by (destruct H as [H|[_ H]]; [exact H|congruence]).
      destruct (d_none _ _ _ _ _ D _ _ _ Q G H') as [A1 A2]. split; [exact A1|]. intros b' Gb. rewrite handled_S. intros [X|[-> ->]]; [exact (A2 b' Gb X)|congruence].
    + destruct (Nat.eqb_spec a b) as [->|Nb]; [discriminate|].
      assert (H' : handled cur i a i) by (destruct H as [H|[H _]]; [exact H|congruence]).
      destruct (d_none _ _ _ _ _ D _ _ _ Q G H') as [A1 A2]. split; [exact A1|]. intros b' Gb. rewrite handled_S. intros [X|[-> _]]; [exact (A2 b' Gb X)|].
      rewrite Gcur in Gb. injection Gb as E. destruct T as [[T1 T2]|T].
      * pose proof (st_up _ _ _ st u (get_In _ _ _ G)) as [Uu _]. pose proof (height_sr u i Uu Hi) as HS. rewrite <- E, T1, height_basis in HS by exact Hi.
        pose proof (up_height n C u Uu). lia.
      * rewrite E, (sr_sr n C cart) in T; [|exact Hi|exact (up_length n C u (proj1 (st_up _ _ _ st u (get_In _ _ _ G))))].
        apply Nb. apply (st_inj l Rs first a b u st G T).
    + assert (H' : handled cur i a i') by (destruct H as [H|[H _]]; [exact H|congruence]).
      destruct (d_none _ _ _ _ _ D _ _ _ Q G H') as [A1 A2]. split; [exact A1|]. intros b' Gb. rewrite handled_S. intros [X|[_ X]]; [exact (A2 b' Gb X)|congruence].
Qed.
Lemma bits_same g g' : dyn l Rs cur i g -> g_ri g' = g_ri g -> pair alpha i = 0 ->
  forall a x, get (g_ri g') a = Some x -> is32 (r_desc x) /\ is32 (r_asc x) /\
    forall i', (mem (r_desc x) i' = true <-> handled cur (S i) a i' /\ (i' < n)%nat /\ 0 < pair (r_root x) i') /\
              (mem (r_asc x) i' = true <-> handled cur (S i) a i' /\ (i' < n)%nat /\ pair (r_root x) i' < 0).
Proof.
  intros D -> P a x G. destruct (d_bits _ _ _ _ _ D a x G) as (B1 & B2 & B3). split; [exact B1|]. split; [exact B2|]. intros i'.
  destruct (B3 i') as [X Y]. rewrite X, Y, handled_S. pose proof (get_ri g a x D G) as Ga.
  assert (Z0 : a = cur /\ i' = i -> pair (r_root x) i' = 0) by (intros [-> ->]; rewrite Gcur in Ga; injection Ga as <-; exact P).
  split; (split; [tauto|]); (intros ([H|H] & Hn & Q); [tauto|]); specialize (Z0 H); lia.
Qed.
Lemma desc_ok g : dyn l Rs cur i g -> 0 < pair alpha i -> exists g', set_info g cur (add_desc i) = Ok g' /\ g_levels g' = g_levels g /\ g_link g' = g_link g /\
  g_first g' = g_first g /\ map r_root (g_ri g') = Rs /\ (forall a x, get (g_ri g') a = Some x -> is32 (r_desc x) /\ is32 (r_asc x) /\
    forall i', (mem (r_desc x) i' = true <-> handled cur (S i) a i' /\ (i' < n)%nat /\ 0 < pair (r_root x) i') /\
              (mem (r_asc x) i' = true <-> handled cur (S i) a i' /\ (i' < n)%nat /\ pair (r_root x) i' < 0)).
Proof.
  intros D P. destruct (ri_at g cur alpha D Gcur) as (x & Gx & Ex). destruct (d_bits _ _ _ _ _ D cur x Gx) as (B1 & B2 & B3).
  destruct (nset_ok (r_desc x) i B1 ltac:(lia)) as (b & Eb & Wb & Mb).
  destruct (set_info_ok g cur x (add_desc i) (mk_info (r_root x) (r_coroot x) (r_perm x) b (r_asc x)) Gx) as (g' & E & E1 & E2 & E3 & E4).
  { unfold add_desc. rewrite Eb. reflexivity. }
  exists g'. split; [exact E|]. split; [exact E1|]. split; [exact E2|]. split; [exact E3|]. split.
  { rewrite <- (d_roots _ _ _ _ _ D). apply (map_root_same _ _ cur _ E4). exists x. split; [exact Gx|reflexivity]. }
  intros a y G. rewrite E4 in G. destruct (Nat.eqb_spec a cur) as [->|Na].
  - injection G as <-. cbn [r_desc r_asc r_root]. split; [exact Wb|]. split; [exact B2|]. intros i'. destruct (B3 i') as [X Y].
    rewrite Mb, Y, handled_S, orb_true_iff, Nat.eqb_eq, X, Ex. split.
    + split; [intros [->|Q]; [|tauto]; split; [right; split; reflexivity|split; [exact Hi|exact P]]|]. intros ([H|[_ H]] & Q); [right; tauto|left; exact H].
    + split; [tauto|]. intros ([H|[_ ->]] & Q); [tauto|lia].
  - destruct (d_bits _ _ _ _ _ D a y G) as (C1 & C2 & C3). split; [exact C1|]. split; [exact C2|]. intros i'. destruct (C3 i') as [X Y].
    rewrite X, Y, handled_S. split; (split; [tauto|]); (intros ([H|[H _]] & Q); [tauto|congruence]).
Qed.
Lemma asc_ok g : dyn l Rs cur i g -> pair alpha i < 0 -> exists g', set_info g cur (add_asc i) = Ok g' /\ g_levels g' = g_levels g /\ g_link g' = g_link g /\
  g_first g' = g_first g /\ map r_root (g_ri g') = Rs /\ (forall a x, get (g_ri g') a = Some x -> is32 (r_desc x) /\ is32 (r_asc x) /\
    forall i', (mem (r_desc x) i' = true <-> handled cur (S i) a i' /\ (i' < n)%nat /\ 0 < pair (r_root x) i') /\
              (mem (r_asc x) i' = true <-> handled cur (S i) a i' /\ (i' < n)%nat /\ pair (r_root x) i' < 0)).
Proof.
  intros D P. destruct (ri_at g cur alpha D Gcur) as (x & Gx & Ex). destruct (d_bits _ _ _ _ _ D cur x Gx) as (B1 & B2 & B3).
  destruct (nset_ok (r_asc x) i B2 ltac:(lia)) as (b & Eb & Wb & Mb).
  destruct (set_info_ok g cur x (add_asc i) (mk_info (r_root x) (r_coroot x) (r_perm x) (r_desc x) b) Gx) as (g' & E & E1 & E2 & E3 & E4).
  { unfold add_asc. rewrite Eb. reflexivity. }
  exists g'. split; [exact E|]. split; [exact E1|]. split; [exact E2|]. split; [exact E3|]. split.
  { rewrite <- (d_roots _ _ _ _ _ D). apply (map_root_same _ _ cur _ E4). exists x. split; [exact Gx|reflexivity]. }
  intros a y G. rewrite E4 in G. destruct (Nat.eqb_spec a cur) as [->|Na].
  - injection G as <-. cbn [r_desc r_asc r_root]. split; [exact B1|]. split; [exact Wb|]. intros i'. destruct (B3 i') as [X Y].
    rewrite Mb, X, handled_S, orb_true_iff, Nat.eqb_eq, Y, Ex. split.
    + split; [tauto|]. intros ([H|[_ ->]] & Q); [tauto|lia].
    + split; [intros [->|Q]; [|tauto]; split; [right; split; reflexivity|split; [exact Hi|exact P]]|]. intros ([H|[_ H]] & Q); [right; tauto|left; exact H].
  - destruct (d_bits _ _ _ _ _ D a y G) as (C1 & C2 & C3). split; [exact C1|]. split; [exact C2|]. intros i'. destruct (C3 i') as [X Y].
    rewrite X, Y, handled_S. split; (split; [tauto|]); (intros ([H|[H _]] & Q); [tauto|congruence]).
Qed.
Lemma rows_same g g' : g_link g' = g_link g -> rows_ok n g -> rows_ok n g'.
Proof. intros E R a row. rewrite E. apply R. Qed.
Lemma lk_same g g' a i' : g_link g' = g_link g -> lk g' a i' = lk g a i'.
Proof. intros E. unfold lk. rewrite E. reflexivity. Qed.

Lemma gen_coord_ok g : dyn l Rs cur i g -> g_first g = first -> exists g', gen_coord cor l cur alpha i g = Ok g' /\ dyn l Rs cur (S i) g' /\ g_first g' = first.
Proof.
  intros D Fi. unfold gen_coord. destruct (get_some cor i ltac:(lia)) as [si Gs]. rewrite (vget_ok _ _ _ Gs). cbn [bind].
  rewrite (dot_pair alpha i si U Hi Gs). cbn [bind]. pose proof (d_kn _ _ _ _ _ D) as Kn. pose proof (d_rows _ _ _ _ _ D) as Ro.
  pose proof Lalpha as La. pose proof (up_height n C alpha U) as Hpos.
  destruct (Z.eqb_spec (pair alpha i) 0) as [P0|P0].
  { destruct (set_link_ok n g cur i cur Ro ltac:(lia) Hi) as (g' & E & E1 & E2 & E3 & E4 & E5 & E6). exists g'. split; [exact E|]. split; [|congruence].
    apply (link_done g g' cur D (bits_same g g' D E2 P0)); try assumption; [rewrite E2; apply (d_roots _ _ _ _ _ D)|lia|lia| |].
    - right. unfold sreflect. rewrite P0. cbn. rewrite bump_0 by lia. exact Gcur.
    - intros a' i'. rewrite E6. destruct (Nat.eqb a' cur && Nat.eqb i' i); reflexivity. }
  rewrite (vget_ok alpha i (co alpha i)) by (apply get_co; lia). cbn [bind].
  destruct (Z.ltb_spec 0 (pair alpha i)) as [P|P].
  - destruct (desc_ok g D P) as (g1 & -> & F1 & F2 & F3 & F4 & F5). 
    destruct (Nat.eqb_spec l 1) as [L1|L1].
    + destruct (up_height_1 n C cart alpha U ltac:(lia)) as (i1 & Hi1 & Ea).
      assert (i1 = i) as ->.
      { destruct (Nat.eq_dec i1 i) as [E|N]; [exact E|]. exfalso. rewrite Ea, pair_basis in P by exact Hi1.
        pose proof (proj1 (proj2 cart) i1 i Hi1 Hi N). lia. }
      assert (VB : exists w, vput alpha i (s8 (co alpha i - pair alpha i)) = Ok w) by (destruct (vput_ok alpha i (s8 (co alpha i - pair alpha i)) ltac:(lia)) as (w & E & _); exists w; exact E).
      destruct VB as (w & ->). cbn [bind].
      destruct (set_link_ok n g1 cur i cur) as (g' & E & E1 & E2 & E3 & E4 & E5 & E6); [apply (rows_same g); assumption|rewrite F2; lia|exact Hi|].
      exists g'. split; [exact E|]. split; [|congruence]. apply (link_done g g' cur D); try assumption; try congruence; [rewrite E2; exact F5|left; split; [exact Ea|reflexivity]|].
      intros a' i'. rewrite E6, (lk_same g g1) by exact F2. destruct (Nat.eqb a' cur && Nat.eqb i' i); reflexivity.
    + assert (NE : alpha <> basis n i) by (intros E; rewrite E, height_basis in Hl by exact Hi; lia).
      pose proof (up_closed n C cart small alpha i U Hi NE) as US. rewrite (sr_vput alpha i U Hi US). cbn [bind].
      pose proof (height_sr alpha i U Hi) as HS. pose proof (up_height n C _ US) as HP.
      unfold index. rewrite (proj2 (Z.ltb_ge (Z.of_nat l - pair alpha i) 0)) by lia. cbn [bind].
      set (j0 := Z.to_nat (Z.of_nat l - pair alpha i)). rewrite F3, Fi.
      destruct (st_first _ _ _ st j0 ltac:(lia)) as (lo & Glo & Llo & Flo). destruct (st_first _ _ _ st (S j0) ltac:(lia)) as (hi & Ghi & Lhi & Fhi).
      rewrite (vget_ok _ _ _ Glo), (vget_ok _ _ _ Ghi). cbn [bind].
      pose proof (st_all _ _ _ st (sr i alpha) US ltac:(lia)) as I. destruct (In_get _ _ I) as (j & Gj).
      assert (Rj : (lo <= j < hi)%nat).
      { pose proof (proj2 (Flo j _ Gj) ltac:(lia)). split; [lia|]. destruct (le_lt_dec hi j) as [Q|Q]; [|exact Q]. apply (Fhi j _ Gj) in Q. lia. }
      assert (Lri : length (g_ri g1) = length Rs) by (rewrite <- F4, map_length; reflexivity).
      destruct (look_ok r_root (g_ri g1) (sr i alpha) (hi - lo) lo ltac:(lia)) as (o & -> & Ho). cbn [bind].
      destruct o as [j'|].
      * destruct Ho as (Hj' & y & Gy & Ey). assert (Gj' : get Rs j' = Some (sr i alpha)) by (rewrite <- F4, <- Ey; apply get_map_some; exact Gy).
        assert (j' = j) as -> by (apply (st_inj l Rs first j' j _ st Gj' Gj)). clear Gj'.
        destruct (set_link_ok n g1 cur i j) as (g2 & -> & E1 & E2 & E3 & E4 & E5 & E6); [apply (rows_same g); assumption|rewrite F2; lia|exact Hi|]. cbn [bind].
        destruct (set_link_ok n g2 j i cur E5) as (g' & -> & A1 & A2 & A3 & A4 & A5 & A6); [rewrite E4, F2, Kn; apply (get_lt _ _ _ Gj)|exact Hi|].
        exists g'. split; [reflexivity|]. split; [|congruence].
        apply (link_done g g' j D); try assumption; try congruence; [rewrite A2, E2; exact F5|right; exact Gj|].
        assert (Njc : j <> cur). { intros E. subst j. rewrite Gcur in Gj. injection Gj as Ej. rewrite <- Ej in HS. lia. }
        intros a' i'. rewrite A6, E6, (lk_same g g1) by exact F2.
        destruct (Nat.eqb_spec a' cur) as [->|Q1]; destruct (Nat.eqb_spec i' i) as [->|Q2]; cbn [andb]; rewrite ?andb_false_r, ?andb_true_r; try reflexivity.
        rewrite (proj2 (Nat.eqb_neq cur j)) by congruence. reflexivity.
      * exfalso. rewrite <- F4, get_map in Gj. destruct (get (g_ri g1) j) as [y|] eqn:Gy; [|discriminate]. injection Gj as Ey.
        apply (Ho j y ltac:(lia) Gy Ey).
  - assert (Pn : pair alpha i < 0) by lia. pose proof (up_reflect n C i alpha Hi U Pn) as US.
    rewrite (sr_vput alpha i U Hi US). cbn [bind]. pose proof (height_sr alpha i U Hi) as HS. pose proof (up_bound _ US) as HB.
    destruct (asc_ok g D Pn) as (g1 & -> & F1 & F2 & F3 & F4 & F5). cbn [bind].
    unfold index. rewrite (proj2 (Z.ltb_ge (Z.of_nat l - pair alpha i) 0)) by lia. cbn [bind].
    set (m := Z.to_nat (Z.of_nat l - pair alpha i)). pose proof (d_ln _ _ _ _ _ D) as Ln. rewrite F1.
    destruct (get_some (g_levels g) m ltac:(lia)) as [s Gm]. rewrite (vget_ok _ _ _ Gm). cbn [bind].
    destruct (vput_ok (g_levels g) m (rs_insert (sr i alpha) s) ltac:(lia)) as (lv & -> & L2 & G2). cbn [bind].
    eexists. split; [reflexivity|]. cbn [g_first]. split; [|congruence].
    destruct (d_lv _ _ _ _ _ D m s ltac:(lia) Gm) as [Ss Is].
    assert (Lens : forall x, In x s -> length x = n).
    { intros x I. apply Is in I. destruct I as (a & i' & u & _ & _ & Ga & _ & -> & _). rewrite sr_length. apply (up_length n C). apply (st_up _ _ _ st u (get_In _ _ _ Ga)). }
    constructor; cbn [g_ri g_levels g_link g_first].
    + exact F4.
    + lia.
    + intros m' s' Hm' G'. rewrite G2 in G'. destruct (Nat.eqb_spec m' m) as [->|Nm].
      * injection G' as <-. split; [apply (rs_insert_sorted n); [rewrite sr_length; exact La|exact Lens|exact Ss]|].
        intros v. rewrite (rs_insert_in n) by (try exact Lens; rewrite sr_length; exact La). rewrite Is. split.
        -- intros [->|(a & i' & u & Q)]; [exists cur, i, alpha; rewrite handled_S; split; [tauto|]; split; [exact Hi|]; split; [exact Gcur|]; split; [exact Pn|]; split; [reflexivity|lia]|].
           exists a, i', u. rewrite handled_S. tauto.
        -- intros (a & i' & u & Q & Q2). rewrite handled_S in Q. destruct Q as [Q|[-> ->]]; [right; exists a, i', u; tauto|]. left.
           destruct Q2 as (_ & Ga & _ & -> & _). rewrite Gcur in Ga. injection Ga as <-. reflexivity.
      * destruct (d_lv _ _ _ _ _ D m' s' Hm' G') as [S1 S2]. split; [exact S1|]. intros v. rewrite S2. split.
        -- intros (a & i' & u & Q). exists a, i', u. rewrite handled_S. tauto.
        -- intros (a & i' & u & Q & Hn & Ga & Pq & Ev & Hv). rewrite handled_S in Q. destruct Q as [Q|[-> ->]]; [exists a, i', u; tauto|]. exfalso.
           rewrite Gcur in Ga. injection Ga as <-. subst v. lia.
    + rewrite F2. exact Kn.
    + apply (rows_same g); [exact F2|exact Ro].
    + intros a i' b u Q. rewrite (lk_same g) in Q by exact F2. apply (d_some _ _ _ _ _ D _ _ _ _ Q).
    + intros a i' u Q G H. rewrite (lk_same g) in Q by exact F2. rewrite handled_S in H. destruct H as [H|[-> ->]].
      * destruct (d_none _ _ _ _ _ D _ _ _ Q G H) as [A1 A2]. split; [exact A1|]. intros b Gb. rewrite handled_S. intros [X|[-> ->]]; [exact (A2 b Gb X)|].
        rewrite Gcur in Gb. injection Gb as E. pose proof (pair_sr_self n C cart i u Hi (up_length n C u (proj1 (st_up _ _ _ st u (get_In _ _ _ G))))) as PS.
        rewrite <- E in PS. lia.
      * rewrite Gcur in G. injection G as <-. split; [exact Pn|]. intros b Gb _. pose proof (st_up _ _ _ st _ (get_In _ _ _ Gb)) as [_ Hb]. lia.
    + exact F5.
Qed.
End Coord.

(** ** One root *)
Definition fresh (alpha : list Z) (g : gen) : gen := mk_gen (g_levels g) (g_ri g ++ [mk_info alpha [] [] 0 0]) (g_link g ++ [repeat None n]) (g_first g).
Lemma push_static l Rs first alpha : static l Rs first -> up alpha -> height alpha = Z.of_nat l -> (forall v, In v Rs -> before v alpha) ->
  static l (Rs ++ [alpha]) first.
Proof.
  intros S U H B. constructor.
  - intros v I. rewrite in_app_iff in I. destruct I as [I|[<-|[]]]; [apply (st_up _ _ _ S v I)|]. split; [exact U|lia].
  - apply sorted_snoc; [apply (st_sorted _ _ _ S)|exact B].
  - intros v Uv Hv. rewrite in_app_iff. left. apply (st_all _ _ _ S v Uv Hv).
  - apply (st_fn _ _ _ S).
  - intros j Hj. destruct (st_first _ _ _ S j Hj) as (f & G & L & F). exists f. split; [exact G|]. rewrite app_length. split; [lia|].
    intros a v Ga. rewrite get_app in Ga. destruct (Nat.eqb_spec a (length Rs)) as [->|N]; [|apply (F a v Ga)]. injection Ga as <-. lia.
Qed.
Lemma push_dyn l Rs g alpha : dyn l Rs (length Rs) 0 g -> dyn l (Rs ++ [alpha]) (length Rs) 0 (fresh alpha g).
Proof.
  intros D. pose proof (d_kn _ _ _ _ _ D) as Kn. assert (Lr : length (g_ri g) = length Rs) by (rewrite <- (d_roots _ _ _ _ _ D), map_length; reflexivity).
  assert (GA : forall a u, (a < length Rs)%nat -> get (Rs ++ [alpha]) a = Some u -> get Rs a = Some u).
  { intros a u Ha. rewrite get_app. destruct (Nat.eqb_spec a (length Rs)); [lia|tauto]. }
  assert (LK : forall a i, lk (fresh alpha g) a i = if Nat.eqb a (length Rs) then get (repeat None n) i else lk g a i).
  { intros a i. unfold lk, fresh. cbn [g_link]. rewrite get_app, Kn. destruct (Nat.eqb_spec a (length Rs)); reflexivity. }
  constructor; unfold fresh; cbn [g_ri g_levels g_link g_first].
  - rewrite map_app, (d_roots _ _ _ _ _ D). reflexivity.
  - apply (d_ln _ _ _ _ _ D).
  - intros m s Hm G. destruct (d_lv _ _ _ _ _ D m s Hm G) as [S1 S2]. split; [exact S1|]. intros v. rewrite S2.
    split; intros (a & i & u & H & Hn & Ga & Q); exists a, i, u; (split; [exact H|split; [exact Hn|split; [|exact Q]]]); unfold handled in H.
    + rewrite get_app. destruct (Nat.eqb_spec a (length Rs)); [lia|exact Ga].
    + apply GA; [lia|exact Ga].
  - rewrite !app_length, Kn. reflexivity.
  - intros a row G. cbn [g_link] in G. rewrite get_app in G. destruct (Nat.eqb a (length (g_link g))); [|apply (d_rows _ _ _ _ _ D a row G)].
    injection G as <-. apply repeat_length.
  - intros a i b u Q G. rewrite LK in Q. destruct (Nat.eqb_spec a (length Rs)) as [->|N].
    + exfalso. destruct (le_lt_dec n i) as [H|H]; [|rewrite get_repeat in Q by exact H; discriminate].
      unfold get in Q. rewrite (proj2 (nth_error_None _ _)) in Q by (rewrite repeat_length; exact H). discriminate.
    + rewrite get_app in G. destruct (Nat.eqb_spec a (length Rs)); [congruence|]. destruct (d_some _ _ _ _ _ D a i b u Q G) as [X|X]; [left; exact X|].
      right. rewrite get_app. destruct (Nat.eqb_spec b (length Rs)) as [->|]; [|exact X]. apply get_lt in X. lia.
  - intros a i u Q G H. rewrite LK in Q. assert (Ha : (a < length Rs)%nat) by (unfold handled in H; lia).
    destruct (Nat.eqb_spec a (length Rs)); [lia|]. destruct (d_none _ _ _ _ _ D a i u Q (GA a u Ha G) H) as [A1 A2]. split; [exact A1|].
    intros b Gb Hb. apply (A2 b); [|exact Hb]. apply GA; [|exact Gb]. unfold handled in Hb. lia.
  - intros a x G. rewrite get_app in G. destruct (Nat.eqb_spec a (length (g_ri g))) as [->|N]; [|apply (d_bits _ _ _ _ _ D a x G)].
    injection G as <-. cbn [r_desc r_asc r_root]. split; [|split]; [unfold is32; lia|unfold is32; lia|]. intros i. rewrite mem_0.
    split; (split; [discriminate|]); intros (H & _); unfold handled in H; lia.
Qed.
Lemma full_row l Rs cur g : dyn l Rs cur n g -> dyn l Rs (S cur) 0 g.
Proof.
  intros D. assert (HH : forall a i, (i < n)%nat -> handled cur n a i <-> handled (S cur) 0 a i) by (intros a i Hi; unfold handled; lia).
  assert (LI : forall a i o, lk g a i = Some o -> (i < n)%nat).
  { intros a i o. unfold lk. destruct (get (g_link g) a) as [row|] eqn:G; [|discriminate]. intros Q. apply get_lt in Q. rewrite (d_rows _ _ _ _ _ D a row G) in Q. exact Q. }
  constructor; try apply D.
  - intros m s Hm G. destruct (d_lv _ _ _ _ _ D m s Hm G) as [S1 S2]. split; [exact S1|]. intros v. rewrite S2.
    split; intros (a & i & u & H & Hn & Q); exists a, i, u; (split; [apply (HH a i Hn); exact H|split; [exact Hn|exact Q]]).
  - intros a i u Q G H. pose proof (LI a i None Q) as Hn. apply (HH a i Hn) in H. destruct (d_none _ _ _ _ _ D a i u Q G H) as [A1 A2]. split; [exact A1|].
    intros b Gb Hb. apply (HH b i Hn) in Hb. exact (A2 b Gb Hb).
  - intros a x G. destruct (d_bits _ _ _ _ _ D a x G) as (B1 & B2 & B3). split; [exact B1|]. split; [exact B2|]. intros i. destruct (B3 i) as [X Y]. rewrite X, Y.
    split; (split; intros (H & Hn & Q); (split; [apply (HH a i Hn); exact H|tauto])).
Qed.
Lemma gen_root_ok l Rs first g alpha : static l Rs first -> dyn l Rs (length Rs) 0 g -> g_first g = first -> up alpha -> height alpha = Z.of_nat l ->
  (forall v, In v Rs -> before v alpha) -> exists g', gen_root n cor l g alpha = Ok g' /\ static l (Rs ++ [alpha]) first /\
    dyn l (Rs ++ [alpha]) (length (Rs ++ [alpha])) 0 g' /\ g_first g' = first.
Proof.
  intros S D F U H B. pose proof (push_static _ _ _ _ S U H B) as S'. pose proof (push_dyn l Rs g alpha D) as D'.
  assert (Lr : length (g_ri g) = length Rs) by (rewrite <- (d_roots _ _ _ _ _ D), map_length; reflexivity).
  assert (LL : length (Rs ++ [alpha]) = Datatypes.S (length Rs)) by (rewrite app_length; cbn; lia).
  assert (Gc : get (Rs ++ [alpha]) (length Rs) = Some alpha) by (rewrite get_app, Nat.eqb_refl; reflexivity).
  unfold gen_root. rewrite Lr.
  destruct (gives_none (upto n 0 (gen_coord cor l (length Rs) alpha) (fresh alpha g))
     (fun g' => dyn l (Rs ++ [alpha]) (length Rs) n g' /\ g_first g' = first)) as (g' & E & D1 & F1).
  { apply (gives_upto0 (fun i g' => dyn l (Rs ++ [alpha]) (length Rs) i g' /\ g_first g' = first)).
    - split; [exact D'|exact F].
    - intros i g1 Hi [D1 F1]. destruct (gen_coord_ok l (length Rs) (Rs ++ [alpha]) first alpha i S' LL Gc H Hi g1 D1 F1) as (g2 & -> & Q). exact Q.
    - intros s Q. exact Q. }
  exists g'. split; [exact E|]. split; [exact S'|]. split; [|exact F1]. rewrite LL. apply full_row. exact D1.
Qed.
Lemma gen_roots_ok l first s : forall Rs g, static l Rs first -> dyn l Rs (length Rs) 0 g -> g_first g = first ->
  StronglySorted rlt s -> (forall v, In v s -> up v /\ height v = Z.of_nat l) -> (forall u v, In u Rs -> In v s -> before u v) ->
  exists g', gen_roots n cor l s g = Ok g' /\ static l (Rs ++ s) first /\ dyn l (Rs ++ s) (length (Rs ++ s)) 0 g' /\ g_first g' = first.
Proof.
  induction s as [|alpha s IH]; intros Rs g S D F O U B; cbn [gen_roots].
  { exists g. rewrite app_nil_r. split; [reflexivity|]. split; [exact S|]. split; [exact D|exact F]. }
  destruct (U alpha (or_introl eq_refl)) as [Ua Ha]. inversion_clear O as [|? ? O1 O2]. rewrite Forall_forall in O2.
  destruct (gen_root_ok l Rs first g alpha S D F Ua Ha (fun v I => B v alpha I (or_introl eq_refl))) as (g1 & -> & S1 & D1 & F1). cbn [bind].
  replace (Rs ++ alpha :: s) with ((Rs ++ [alpha]) ++ s) by (rewrite <- app_assoc; reflexivity).
  apply (IH _ _ S1 D1 F1 O1); [intros v I; apply U; right; exact I|]. intros u v Iu Iv. rewrite in_app_iff in Iu. destruct Iu as [Iu|[<-|[]]].
  - apply (B u v Iu). right. exact Iv.
  - right. destruct (U v (or_intror Iv)) as [_ Hv]. split; [lia|]. apply O2. exact Iv.
Qed.

(** ** The levels *)
Record entry (l : nat) (Rs : list (list Z)) (g : gen) : Prop := {
  e_st : static l Rs (g_first g ++ [length Rs]);
  e_low : forall v, In v Rs -> height v < Z.of_nat l;
  e_dyn : dyn l Rs (length Rs) 0 g;
  e_lv : forall s, get (g_levels g) l = Some s -> StronglySorted rlt s /\ forall v, In v s <-> up v /\ height v = Z.of_nat l }.
(** what the generation delivers *)
Record generated (g : gen) : Prop := {
  gn_in : forall v, In v (map r_root (g_ri g)) <-> up v;
  gn_sorted : StronglySorted before (map r_root (g_ri g));
  gn_kn : length (g_link g) = length (g_ri g);
  gn_link : forall a i x, get (g_ri g) a = Some x -> (i < n)%nat -> exists b, lk g a i = Some (Some b) /\
    ((r_root x = basis n i /\ b = a) \/ (r_root x <> basis n i /\ exists y, get (g_ri g) b = Some y /\ r_root y = sr i (r_root x)));
  gn_bits : forall a x, get (g_ri g) a = Some x -> is32 (r_desc x) /\ is32 (r_asc x) /\
    forall i, (mem (r_desc x) i = true <-> (i < n)%nat /\ 0 < pair (r_root x) i) /\ (mem (r_asc x) i = true <-> (i < n)%nat /\ pair (r_root x) i < 0) }.
Lemma finish l Rs g : (1 <= l)%nat -> entry l Rs g -> get (g_levels g) l = Some [] -> generated g.
Proof.
  intros Hl [S Lo D Lv] G. destruct (Lv [] G) as [_ I0]. pose proof (d_roots _ _ _ _ _ D) as E. 
  assert (Lr : length (g_ri g) = length Rs) by (rewrite <- E, map_length; reflexivity).
  assert (In_up : forall v, In v Rs <-> up v).
  { intros v. split; [intros I; apply (st_up _ _ _ S v I)|]. intros U. destruct (Z_lt_le_dec (height v) (Z.of_nat l)) as [H|H]; [apply (st_all _ _ _ S v U H)|].
    exfalso. destruct (Z.eq_dec (height v) (Z.of_nat l)) as [Q|Q]; [apply (I0 v); split; assumption|].
    destruct (no_gap l v U ltac:(lia) Hl) as (u & Uu & Hu). apply (I0 u). split; assumption. }
  assert (HA : forall a x, get (g_ri g) a = Some x -> get Rs a = Some (r_root x)) by (intros a x Q; rewrite <- E; apply get_map_some; exact Q).
  constructor.
  - rewrite E. exact In_up.
  - rewrite E. apply (st_sorted _ _ _ S).
  - rewrite Lr. apply (d_kn _ _ _ _ _ D).
  - intros a i x Gx Hi. pose proof (HA a x Gx) as Ga. pose proof (proj1 (In_up _) (get_In _ _ _ Ga)) as U.
    assert (exists o, lk g a i = Some o) as [o Ho].
    { unfold lk. destruct (get_some (g_link g) a) as [row Gr]; [rewrite (d_kn _ _ _ _ _ D); apply (get_lt _ _ _ Ga)|]. rewrite Gr. apply get_some.
      rewrite (d_rows _ _ _ _ _ D a row Gr). exact Hi. }
    destruct o as [b|].
    + exists b. split; [exact Ho|]. destruct (d_some _ _ _ _ _ D a i b _ Ho Ga) as [X|X]; [left; exact X|]. right.
      assert (Gy : exists y, get (g_ri g) b = Some y /\ r_root y = sr i (r_root x)).
      { rewrite <- E, get_map in X. destruct (get (g_ri g) b) as [y|]; [|discriminate]. exists y. split; [reflexivity|congruence]. }
      split; [|exact Gy]. intros B. pose proof (proj1 (In_up _) (get_In _ _ _ X)) as U1. pose proof (height_sr (r_root x) i U Hi) as HS.
      pose proof (up_height n C _ U1) as HP. rewrite HS, B, height_basis, pair_basis, (proj1 cart) in HP by exact Hi. lia.
    + exfalso. assert (H : handled (length Rs) 0 a i) by (left; apply (get_lt _ _ _ Ga)). destruct (d_none _ _ _ _ _ D a i _ Ho Ga H) as [P Q].
      pose proof (up_reflect n C i _ Hi U P) as US. apply In_up in US. destruct (In_get _ _ US) as [b Gb]. apply (Q b Gb). left. apply (get_lt _ _ _ Gb).
  - intros a x Gx. destruct (d_bits _ _ _ _ _ D a x Gx) as (B1 & B2 & B3). split; [exact B1|]. split; [exact B2|]. intros i. destruct (B3 i) as [X Y]. rewrite X, Y.
    pose proof (get_lt _ _ _ (HA a x Gx)) as La. assert (H : handled (length Rs) 0 a i) by (left; exact La). tauto.
Qed.
Lemma gen_levels_ok fuel : forall l Rs g, (1 <= l < 4 * n)%nat -> (4 * n - l < fuel)%nat -> entry l Rs g ->
  exists g', gen_levels fuel n cor l g = Ok g' /\ generated g'.
Proof.
  induction fuel as [|fuel IH]; intros l Rs g Hl Hf En; [lia|]. cbn [gen_levels]. pose proof (d_ln _ _ _ _ _ (e_dyn _ _ _ En)) as Ln.
  destruct (get_some (g_levels g) l ltac:(lia)) as [s Gs]. rewrite (vget_ok _ _ _ Gs). cbn [bind].
  destruct s as [|v0 s0] eqn:Es; [exists g; split; [reflexivity|]; apply (finish l Rs g); [lia|exact En|exact Gs]|]. rewrite <- Es in *.
  destruct (e_lv _ _ _ En s Gs) as [So Is]. destruct (proj1 (Is v0)) as [U0 H0]; [rewrite Es; left; reflexivity|]. pose proof (up_bound v0 U0) as B0. rewrite H0 in B0. clear Es v0 s0 U0 H0.
  assert (Lr : length (g_ri g) = length Rs) by (rewrite <- (d_roots _ _ _ _ _ (e_dyn _ _ _ En)), map_length; reflexivity).
  set (Rs1 := Rs ++ s).
  destruct (gen_roots_ok l (g_first g ++ [length Rs]) s Rs (mk_gen (g_levels g) (g_ri g) (g_link g) (g_first g ++ [length (g_ri g)]))) as (g1 & E1 & S1 & D1 & F1).
  { exact (e_st _ _ _ En). }
  { pose proof (e_dyn _ _ _ En) as D. constructor; apply D. }
  { cbn [g_first]. rewrite Lr. reflexivity. }
  { exact So. }
  { intros v I. apply Is. exact I. }
  { intros u v Iu Iv. left. apply Is in Iv. pose proof (e_low _ _ _ En u Iu). lia. }
  fold Rs1 in S1, D1. rewrite E1. cbn [bind].
  pose proof (d_ln _ _ _ _ _ D1) as Ln1. destruct (vput_ok (g_levels g1) l [] ltac:(lia)) as (lv & -> & L2 & G2). cbn [bind].
  apply (IH (S l) Rs1); [lia|lia|].
  assert (all1 : forall v, up v -> height v < Z.of_nat (S l) -> In v Rs1).
  { intros v U H. unfold Rs1. rewrite in_app_iff. destruct (Z.eq_dec (height v) (Z.of_nat l)) as [Q|Q]; [right; apply Is; split; assumption|].
    left. apply (st_all _ _ _ (e_st _ _ _ En) v U). lia. }
  constructor; cbn [g_first].
  - constructor.
    + intros v I. destruct (st_up _ _ _ S1 v I). split; [assumption|lia].
    + apply (st_sorted _ _ _ S1).
    + exact all1.
    + rewrite app_length, F1, (st_fn _ _ _ S1). cbn. lia.
    + intros j Hj. pose proof (st_fn _ _ _ S1) as Fn. rewrite get_app, F1, Fn. destruct (Nat.eqb_spec j (S l)) as [->|N].
      * exists (length Rs1). split; [reflexivity|]. split; [lia|]. intros a v Ga. pose proof (get_lt _ _ _ Ga). pose proof (proj2 (st_up _ _ _ S1 v (get_In _ _ _ Ga))). lia.
      * destruct (st_first _ _ _ S1 j ltac:(lia)) as (f & Gf & Q). exists f. split; [exact Gf|exact Q].
  - intros v I. destruct (st_up _ _ _ S1 v I). lia.
  - constructor; cbn [g_ri g_levels g_link]; try apply D1; [lia|].
    intros m t Hm Gm. rewrite G2 in Gm. destruct (Nat.eqb_spec m l) as [->|N]; [lia|]. apply (d_lv _ _ _ _ _ D1 m t); [lia|exact Gm].
  - intros t Gt. cbn [g_levels] in Gt. rewrite G2 in Gt. destruct (Nat.eqb_spec (S l) l) as [Q|_]; [lia|]. destruct (d_lv _ _ _ _ _ D1 (S l) t ltac:(lia) Gt) as [T1 T2].
    split; [exact T1|]. intros v. rewrite T2. split.
    + intros (a & i & u & _ & Hi & Ga & P & -> & H). split; [|exact H]. apply up_reflect; [exact Hi| |exact P]. apply (st_up _ _ _ S1 u (get_In _ _ _ Ga)).
    + intros [U H]. destruct (up_cases n C cart v U) as [(i & Hi & ->)|(i & u & Hi & Uu & P & -> & _)].
      * rewrite height_basis in H by exact Hi. lia.
      * pose proof (height_sr u i Uu Hi) as HS. destruct (In_get _ _ (all1 u Uu ltac:(lia))) as [a Ga].
        exists a, i, u. split; [left; apply (get_lt _ _ _ Ga)|]. split; [exact Hi|]. split; [exact Ga|]. split; [exact P|]. split; [reflexivity|exact H].
Qed.
Lemma first_levels_ok : exists lv, first_levels n = Ok lv /\ length lv = (4 * n)%nat /\ (exists s, get lv 1 = Some s /\ StronglySorted rlt s /\
  forall v, In v s <-> exists i, (i < n)%nat /\ v = basis n i) /\ forall m, (1 < m < 4 * n)%nat -> get lv m = Some [].
Proof.
  unfold first_levels. apply gives_none.
  apply (gives_upto0 (fun k lv => length lv = (4 * n)%nat /\ (exists s, get lv 1 = Some s /\ StronglySorted rlt s /\
    forall v, In v s <-> exists i, (i < k)%nat /\ v = basis n i) /\ forall m, (1 < m < 4 * n)%nat -> get lv m = Some [])).
  - split; [apply repeat_length|]. split; [|intros m Hm; apply get_repeat; lia].
    exists []. split; [apply get_repeat; lia|]. split; [constructor|]. intros v. split; [intros []|]. intros (i & Hi & _). lia.
  - intros k lv Hk (L & (s & G & O & I) & R). rewrite (vget_ok _ _ _ G). cbn [bind].
    destruct (vput_ok lv 1 (rs_insert (unit_vec n k) s) ltac:(lia)) as (lv1 & -> & L1 & G1). cbn [gives]. rewrite unit_basis in G1 by exact Hk.
    assert (Ls : forall x, In x s -> length x = n) by (intros x Ix; apply I in Ix; destruct Ix as (i & _ & ->); apply basis_length).
    split; [lia|]. split.
    + exists (rs_insert (basis n k) s). split; [rewrite G1; reflexivity|]. split; [apply (rs_insert_sorted n); [apply basis_length|exact Ls|exact O]|].
      intros v. rewrite (rs_insert_in n) by (try exact Ls; apply basis_length). rewrite I. split.
      * intros [->|(i & Hi & E)]; [exists k; split; [lia|reflexivity]|exists i; split; [lia|exact E]].
      * intros (i & Hi & ->). destruct (Nat.eq_dec i k) as [->|N]; [left; reflexivity|right; exists i; split; [lia|reflexivity]].
    + intros m Hm. rewrite G1. destruct (Nat.eqb_spec m 1); [lia|]. apply R. exact Hm.
  - intros lv Q. exact Q.
Qed.
Theorem generate_ok : exists lv g, first_levels n = Ok lv /\ gen_levels (S (4 * n)) n cor 1 (mk_gen lv [] [] [0%nat]) = Ok g /\ generated g.
Proof.
  destruct first_levels_ok as (lv & E & L & (s & G & O & I) & R).
  destruct (gen_levels_ok (S (4 * n)) 1 [] (mk_gen lv [] [] [0%nat])) as (g & Eg & Q); [lia|lia| |exists lv, g; split; [exact E|split; [exact Eg|exact Q]]].
  constructor; cbn [g_first g_levels].
  - constructor; cbn [length app].
    + intros v [].
    + constructor.
    + intros v U H. pose proof (up_height n C v U). lia.
    + reflexivity.
    + intros j Hj. exists 0%nat. split; [|split; [lia|intros a v Ga; destruct a; discriminate]]. destruct j as [|[|j]]; [reflexivity|reflexivity|lia].
  - intros v [].
  - constructor; cbn [g_ri g_levels g_link length].
    + reflexivity.
    + exact L.
    + intros m t Hm Gm. assert (m < 4 * n)%nat by (rewrite <- L; apply (get_lt _ _ _ Gm)). rewrite R in Gm by lia. injection Gm as <-.
      split; [constructor|]. intros v. split; [intros []|]. intros (a & i & u & H1 & _ & Ga & _). destruct a; discriminate.
    + reflexivity.
    + intros a row Ga. destruct a; discriminate.
    + intros a i b u Q. unfold lk in Q. cbn in Q. destruct a; discriminate.
    + intros a i u Q. unfold lk in Q. cbn in Q. destruct a; discriminate.
    + intros a x Ga. destruct a; discriminate.
  - intros t Gt. rewrite G in Gt. injection Gt as <-. split; [exact O|]. intros v. rewrite I. split.
    + intros (i & Hi & ->). split; [apply up_simple; exact Hi|rewrite height_basis by exact Hi; reflexivity].
    + intros [U H]. apply (up_height_1 n C cart v U). exact H.
Qed.
End Gen.
