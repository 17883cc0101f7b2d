(** C130-C133: the Cartan matrices recognised are the positive definite ones; data constructed from subsystems, from
    rational weights and by folding. *)

From Coq Require Import List Arith ZArith Bool Lia Permutation Sorted.
From Verif Require Import VecModel VecProofs RunModel RunProofs MatModel MatSpec MatProofs MatLin MatOps MatProps LatModel SizeModel LieTypeModel LieTypeSpec DynkinModel DynProps
  RootModel RootSpec RootBase RootMath RootForm RootFin RootCo RootAcc RootSys RootUniq RootTop RootProps DatModel DatSpec DatMath DatProofs DatOps DatPre DatSub DatProps DatProps2
  DfModel DfSpec DfInt DfFold DfProps ClsMain ClsSub ClsFold.
Import ListNotations.
Local Open Scope Z_scope.

(** * C130: what is recognised *)
(** a generalised Cartan matrix of size at most 32 is positive definite exactly if it is one of the types A to G *)
Theorem C130_classification (n : nat) (f : nat -> nat -> Z) : (n <= 32)%nat -> (Cartan_like n f /\ positive_definite n f <-> finite_type n f).
Proof.
  intros L. split.
  - intros (C & P). apply definite_finite; assumption.
  - intros F. split; [apply (finite_good n f F)|apply finite_definite; exact F].
Qed.
Theorem C130_recognised (n : nat) (f : nat -> nat -> Z) (c : matrix Z) : is_mx c n n f -> (n <= 32)%nat ->
  ((exists t pi, lie_type_perm c = Ok (t, pi)) <-> Cartan_like n f /\ positive_definite n f) /\
  (lie_type_perm c = Fail Thrown <-> ~ (Cartan_like n f /\ positive_definite n f)).
Proof.
  intros H L. rewrite (C130_classification n f L). destruct (C92_recognised n f c H L) as [R1 R2].
  assert (R3 : forall t pi, lie_type_perm c = Ok (t, pi) -> finite_type n f) by (intros t pi E; exact (type_finite n f c t pi L H E)).
  split; split.
  - intros (t & pi & E). exact (R3 t pi E).
  - exact R1.
  - intros E F. destruct (R1 F) as (t & pi & E'). congruence.
  - exact R2.
Qed.
(** the Cartan matrix of type F4 with renumbered nodes, and a matrix of affine type *)
Definition f4r : matrix Z := mk_mat 4 4 [2; 0; -1; 0;  0; 2; -1; -1;  -1; -2; 2; 0;  0; -1; 0; 2].
Example C130_ex : is_mx f4r 4 4 (ent 4 (mdata f4r)) /\ Cartan_like 4 (ent 4 (mdata f4r)) /\ positive_definite 4 (ent 4 (mdata f4r)) /\ (exists t pi, lie_type_perm f4r = Ok (t, pi)) /\
  is_mx triangle 3 3 (ent 3 (mdata triangle)) /\ lie_type_perm triangle = Fail Thrown /\ Cartan_like 3 (ent 3 (mdata triangle)) /\ qform 3 (ent 3 (mdata triangle)) (fun _ => 1) = 0.
Proof.
  assert (H : is_mx f4r 4 4 (ent 4 (mdata f4r))) by is_matrix 4%nat 4%nat.
  assert (E : exists t pi, lie_type_perm f4r = Ok (t, pi)) by (eexists; eexists; vm_compute; reflexivity).
  destruct (proj1 (proj1 (C130_recognised 4 _ f4r H ltac:(lia))) E) as (C & P).
  split; [exact H|]. split; [exact C|]. split; [exact P|]. split; [exact E|]. split; [is_matrix 3%nat 3%nat|]. split; [vm_compute; reflexivity|]. split; [|reflexivity].
  split; [|split].
  - intros i Hi. do 3 (destruct i as [|i]; [reflexivity|]). lia.
  - intros i j Hi Hj N. do 3 (destruct i as [|i]; [do 3 (destruct j as [|j]; [first [congruence|vm_compute; discriminate]|]); lia|]). lia.
  - intros i j Hi Hj. do 3 (destruct i as [|i]; [do 3 (destruct j as [|j]; [vm_compute; congruence|]); lia|]). lia.
Qed.

(** * C131: subsystems *)
Lemma rc_ext n C D v w : (forall i j, (i < n)%nat -> (j < n)%nat -> C i j = D i j) -> root_coroot n C v w -> root_coroot n D v w.
Proof.
  intros E R. induction R as [i Hi|i v w Hi R IH]; [apply rc_simple; exact Hi|].
  assert (E1 : sreflect n C i v = sreflect n D i v) by (unfold sreflect, pairing; do 2 f_equal; apply zsum_ext; intros j Hj; rewrite E by assumption; reflexivity).
  assert (E2 : sreflect n (flip C) i w = sreflect n (flip D) i w) by (unfold sreflect, pairing, flip; do 2 f_equal; apply zsum_ext; intros j Hj; rewrite E by assumption; reflexivity).
  rewrite E1, E2. apply rc_reflect; assumption.
Qed.
(** the simple roots of a subsystem are at most as many as those of the system; their pairings are a Cartan matrix of
    finite type *)
Theorem C131_simples (n : nat) (f : nat -> nat -> Z) (c : matrix Z) (pc : bool) (s : rootsys) (S : bset) (l : list nat) : built n f c pc s -> length S = num_roots s ->
  (forall a b d, bmem S a = true -> bmem S b = true -> reflected s a b = Ok d -> bmem S d = true) -> simple_basis s S = Ok l ->
  (length l <= n)%nat /\ finite_type (length l) (fun i j => value n f (root_at s (nth i l 0%nat)) (coroot_at s (nth j l 0%nat))).
Proof. intros Bt SL SR E. split; [exact (sub_count n f c pc s Bt S SL SR l E)|exact (sub_finite n f c pc s Bt S SL SR l E)]. Qed.
(** so the type of a subsystem is found *)
Theorem C131_type (n : nat) (f : nat -> nat -> Z) (c : matrix Z) (pc : bool) (s : rootsys) (S : bset) (l : list nat) : built n f c pc s -> length S = num_roots s ->
  (forall a b d, bmem S a = true -> bmem S b = true -> reflected s a b = Ok d -> bmem S d = true) -> simple_basis s S = Ok l ->
  exists M t pi, Cartan_of s l = Ok M /\ lie_type_perm M = Ok (t, pi).
Proof.
  intros Bt SL SR E. destruct (C131_simples n f c pc s S l Bt SL SR E) as [L F]. pose proof Bt as (n32 & ft & mc & made).
  destruct (top_Cartan n f c pc s n32 ft mc made l) as (M & EM & HM).
  - apply Forall_forall. intros a Ia. destruct (In_nth _ _ 0%nat Ia) as (i & Hi & <-). apply (l_at n f c pc s Bt S SL SR l E i Hi).
  - exists M. destruct (proj1 (C92_recognised (length l) _ M HM ltac:(lia)) F) as (t & pi & Q). exists t, pi. split; assumption.
Qed.
Notation listed r n A d g := (fun i j => co (listed_roots r n A d g j) i).
Notation colisted r n B d g := (fun i j => co (listed_coroots r n B d g j) i).
(** the roots of a datum *)
Definition has_root (d : datum) (x y : list Z) : Prop := exists a, (a < num_roots (d_sys d))%nat /\ d_root d a = Ok x /\ d_coroot d a = Ok y.
Lemma roots_of fits r n A B p d : datum_of fits r n A B p d -> forall x y, has_root d x y <->
  exists v w, root_coroot n (pairings r A B) v w /\ x = comb r n (fcol r A) v /\ y = comb r n (fcol r B) w.
Proof.
  intros K0 x y. pose proof (datum_of_ok _ _ _ _ _ _ _ K0) as K. destruct (k_sys _ _ _ _ _ _ K) as [cm (n32 & ft & mc & made)]. split.
  - intros (a & Ha & E1 & E2). destruct (d_root_run r n A B p d K a Ha) as [R1 R2]. rewrite E1 in R1. rewrite E2 in R2. injection R1 as ->. injection R2 as ->.
    exists (root_at (d_sys d) a), (coroot_at (d_sys d) a). split; [apply (k_at _ _ _ _ _ _ K a Ha)|split; reflexivity].
  - intros (v & w & R & -> & ->). destruct (top_every n _ cm _ (d_sys d) n32 ft mc made v w R) as (a & Ha & <- & <-). exists a. split; [exact Ha|]. apply (d_root_run r n A B p d K a Ha).
Qed.
(** the datum of a subsystem is constructed (unless a value does not fit), and its roots and coroots are those of the
    members of the subsystem *)
Theorem C131_datum (fits : Z -> bool) (r n : nat) (A B : nat -> nat -> Z) (p : predatum) (d : datum) (S : bset) (g : list nat) : datum_of fits r n A B p d -> subsystem_of d S g ->
  exists q, sub_predatum d g = Ok q /\ p_prefer q = p_prefer p /\ based r (length g) (listed r n A d g) (colisted r n B d g) q /\
    forall fits', gives (root_datum fits' q) (fun d' => datum_of fits' r (length g) (listed r n A d g) (colisted r n B d g) q d' /\
      forall x y, has_root d' x y <-> exists a, bmem S a = true /\ d_root d a = Ok x /\ d_coroot d a = Ok y) (overflows fits').
Proof.
  intros K0 (SL & SR & Sg). pose proof (datum_of_ok _ _ _ _ _ _ _ K0) as K. destruct (k_sys _ _ _ _ _ _ K) as [cm Bt]. pose proof Bt as (n32 & ft & mc & made).
  set (s := d_sys d) in *. set (m := length g).
  assert (Fg : Forall (fun a => (a < num_roots s)%nat) g).
  { apply Forall_forall. intros a Ia. destruct (In_nth _ _ 0%nat Ia) as (i & Hi & <-). apply (l_at n _ cm _ s Bt S SL SR g Sg i Hi). }
  destruct (sub_run r n A B p d K g Fg) as (q & Eq & Pq & H1 & H2). exists q. split; [exact Eq|]. split; [exact Pq|].
  assert (FC : forall j, fcol r (listed r n A d g) j = listed_roots r n A d g j).
  { intros j. apply vec_ext; [rewrite fcol_length; symmetry; apply comb_length|]. intros k Hk. rewrite fcol_length in Hk. rewrite co_fcol by exact Hk. reflexivity. }
  assert (FD : forall j, fcol r (colisted r n B d g) j = listed_coroots r n B d g j).
  { intros j. apply vec_ext; [rewrite fcol_length; symmetry; apply comb_length|]. intros k Hk. rewrite fcol_length in Hk. rewrite co_fcol by exact Hk. reflexivity. }
  assert (PR : forall i j, pairings r (listed r n A d g) (colisted r n B d g) i j = value n (fun i j => dot r (fcol r A i) (fcol r B j)) (sV s g i) (sW s g j)).
  { intros i j. unfold pairings. rewrite FC, FD. unfold listed_roots, listed_coroots. rewrite (dot_emb_coemb r n (fcol r A) (fcol r B) (fun i j => dot r (fcol r A i) (fcol r B j))) by reflexivity. reflexivity. }
  destruct (C131_simples n _ cm _ s S g Bt SL SR Sg) as [Lm Fm].
  assert (Bd : based r m (listed r n A d g) (colisted r n B d g) q).
  { split; [exact H1|]. split; [exact H2|]. split; [unfold m; lia|]. apply (finite_ext m (fun i j => value n (fun i j => dot r (fcol r A i) (fcol r B j)) (sV s g i) (sW s g j))); [|exact Fm]. intros i j _ _. symmetry. apply PR. }
  split; [exact Bd|]. intros fits'. pose proof Bd as (_ & _ & L32 & F').
  pose proof (root_datum_ok fits' r m _ _ q H1 H2 L32 F') as G. destruct (root_datum fits' q) as [d'|e] eqn:Ed; [|exact G]. cbn in *.
  assert (K' : datum_of fits' r m (listed r n A d g) (colisted r n B d g) q d') by (split; [exact Bd|exact Ed]). split; [exact K'|]. intros x y. rewrite (roots_of _ _ _ _ _ _ _ K' x y).
  pose proof (sub_roots n _ cm _ s Bt S SL SR g Sg) as SB.
  assert (RE : forall v w, root_coroot m (pairings r (listed r n A d g) (colisted r n B d g)) v w <-> root_coroot m (fun i j => value n (fun i j => dot r (fcol r A i) (fcol r B j)) (sV s g i) (sW s g j)) v w).
  { intros v w. split; apply rc_ext; intros i j _ _; rewrite PR; reflexivity. }
  assert (CC : forall v, comb r m (fcol r (listed r n A d g)) v = comb r n (fcol r A) (comb n m (sV s g) v)).
  { intros v. rewrite comb_comb. apply comb_ext. intros i Hi. rewrite FC. reflexivity. }
  assert (CD : forall v, comb r m (fcol r (colisted r n B d g)) v = comb r n (fcol r B) (comb n m (sW s g) v)).
  { intros v. rewrite comb_comb. apply comb_ext. intros i Hi. rewrite FD. reflexivity. }
  split.
  - intros (v & w & R & -> & ->). apply RE in R. destruct (proj2 (SB (comb n m (sV s g) v) (comb n m (sW s g) w))) as (a & Ma & E1 & E2); [exists v, w; auto|].
    exists a. split; [exact Ma|]. pose proof (DatGens.g_lt n _ cm _ s Bt S SL a Ma) as Ha. destruct (d_root_run r n A B p d K a Ha) as [-> ->]. rewrite CC, CD, <- E1, <- E2. split; reflexivity.
  - intros (a & Ma & E1 & E2). pose proof (DatGens.g_lt n _ cm _ s Bt S SL a Ma) as Ha. destruct (d_root_run r n A B p d K a Ha) as [R1 R2]. rewrite E1 in R1. rewrite E2 in R2. injection R1 as ->. injection R2 as ->.
    destruct (proj1 (SB (root_at s a) (coroot_at s a))) as (v & w & R & Q1 & Q2); [exists a; auto|]. exists v, w. split; [apply RE; exact R|]. rewrite CC, CD. fold s. rewrite Q1, Q2. split; reflexivity.
Qed.
Example C131_ex : datum_of i32 3 2 gA gB gsp D /\ subsystem_of D long_set [5; 7]%nat /\ built 2 (ent 2 (mdata g2)) g2 false RootProps.G /\ simple_basis RootProps.G long = Ok [7; 10]%nat /\
  Cartan_of RootProps.G [7; 10]%nat = Ok (mk_mat 2 2 [2; -1; -1; 2]) /\ lie_type_perm (mk_mat 2 2 [2; -1; -1; 2]) = Ok ([(tA, 2%nat)], [0; 1]%nat) /\
  (exists q d', sub_predatum D [5; 7]%nat = Ok q /\ root_datum i32 q = Ok d' /\ num_roots (d_sys d') = 4%nat /\ has_root d' [2; 0; -1] [1; 0; 0] /\ ~ has_root d' [1; -1; 0] [1; -1; 0]).
Proof.
  split; [apply datum_gsp|]. split; [exact long_ok|]. split; [exact built_G|]. split; [vm_compute; reflexivity|]. split; [vm_compute; reflexivity|]. split; [vm_compute; reflexivity|].
  eexists. eexists. split; [vm_compute; reflexivity|]. split; [vm_compute; reflexivity|]. split; [reflexivity|]. split.
  - exists 3%nat. split; [cbn; lia|split; vm_compute; reflexivity].
  - intros (a & Ha & E & _). cbn in Ha. do 4 (destruct a as [|a]; [vm_compute in E; discriminate|]). lia.
Qed.

(** * C132: the datum of a rational weight: its roots are those whose coroots have integral value *)
Theorem C132_integral (fits : Z -> bool) (r n : nat) (A B : nat -> nat -> Z) (p : predatum) (d : datum) (v : list Z) (m : Z) : datum_of fits r n A B p d -> length v = r -> 0 < m ->
  gives (integrality_datum fits d v m) (fun d' => d_rank d' = r /\
    forall x y, has_root d' x y <-> has_root d x y /\ (m | dot r v y)) (overflows fits).
Proof.
  intros K0 L P. pose proof (datum_of_ok _ _ _ _ _ _ _ K0) as K. unfold integrality_datum, integrality_predatum.
  pose proof (simples_run fits r n A B p d K v m L P) as G. destruct (integrality_simples fits d v m) as [l|e]; [|exact G]. cbn [gives bind] in *.
  assert (Sub : subsystem_of d (integrals r n B d v m) l).
  { split; [apply integrals_length|]. split; [|exact G]. intros a b c. apply (integrals_closed fits r n A B p d K v m L P). }
  destruct (C131_datum fits r n A B p d _ l K0 Sub) as (q & Eq & _ & Bd & H). rewrite Eq. cbn [bind]. eapply gives_mono; [exact (H fits)|]. intros d' (K' & R). split; [apply (datum_of_ok _ _ _ _ _ _ _ K')|].
  intros x y. rewrite R. split.
  - intros (a & Ma & E1 & E2). apply (integrals_in fits r n B d v m L P a) in Ma as [Ha Da]. split; [exists a; auto|]. destruct (d_root_run r n A B p d K a Ha) as [_ R2]. rewrite E2 in R2. injection R2 as ->. exact Da.
  - intros ((a & Ha & E1 & E2) & Dv). exists a. split; [|auto]. apply (integrals_in fits r n B d v m L P a). split; [exact Ha|]. destruct (d_root_run r n A B p d K a Ha) as [_ R2]. rewrite E2 in R2. injection R2 as ->. exact Dv.
Qed.

Example C132_ex : datum_of i32 3 2 gA gB gsp D /\ length [1; 1; 0] = 3%nat /\
  exists d', integrality_datum i32 D [1; 1; 0] 2 = Ok d' /\ num_roots (d_sys d') = 4%nat /\ has_root d' [1; 1; -1] [1; 1; 0] /\ has_root d' [1; -1; 0] [1; -1; 0] /\ ~ has_root d' [2; 0; -1] [1; 0; 0].
Proof.
  split; [apply datum_gsp|]. split; [reflexivity|]. eexists. split; [vm_compute; reflexivity|]. split; [reflexivity|]. split; [|split].
  - exists 3%nat. split; [cbn; lia|split; vm_compute; reflexivity].
  - exists 2%nat. split; [cbn; lia|split; vm_compute; reflexivity].
  - intros (a & Ha & E & _). cbn in Ha. do 4 (destruct a as [|a]; [vm_compute in E; discriminate|]). lia.
Qed.

(** * C133: folding by an involution gives a root datum *)
Theorem C133_fold (fits : Z -> bool) (r n : nat) (A B : nat -> nat -> Z) (p : predatum) (d : datum) (g : nat -> nat -> Z) (pi : nat -> nat) (l : list ext_gen) : datum_of fits r n A B p d ->
  permutes_simple r n A B g pi -> involutive r g -> orbits_of n pi (fun i j => pairings r A B i j = 0) l -> NoDup l ->
  let A' i j := co (orbit_root r (fcol r A) (nth j l (One 0))) i in
  let B' i j := co (orbit_coroot r (fcol r B) (nth j l (One 0))) i in
  gives (cofold fits d l) (fun d' => exists q, datum_of fits r (length l) A' B' q d') (overflows fits).
Proof.
  intros K0 Hp Hi Ol ND A' B'. pose proof (datum_of_ok _ _ _ _ _ _ _ K0) as K. pose proof (involution_perm fits r n A B p d g pi K0 Hp Hi) as Inv.
  unfold cofold. pose proof (cofold_run fits r n A B p d K l) as G. destruct (cofold_pre fits d l) as [q|e].
  - cbn [bind]. destruct G as (_ & H1 & H2).
    { apply Forall_forall. intros x Ix. apply (orbit_gens r n A B g pi l Hp Ol x Ix). }
    assert (Bd : based r (length l) A' B' q).
    { split; [exact H1|]. split; [exact H2|]. pose proof (k_n32 _ _ _ _ _ _ K) as L32. pose proof (fold_count r n A B p d K L32 g pi l Hp Inv Ol ND) as Lc. split; [lia|].
      apply (finite_ext _ (fun i j => dot r (orbit_root r (fcol r A) (nth i l (One 0))) (orbit_coroot r (fcol r B) (nth j l (One 0))))); [|apply (fold_finite fits r n A B p d K L32 (k_ft _ _ _ _ _ _ K) g pi l Hp Inv Ol ND)].
      intros i j _ _. unfold pairings. f_equal; (apply vec_ext; [rewrite fcol_length; destruct (nth _ l _); cbn; rewrite ?plus_length, ?fcol_length; reflexivity|]; intros k Hk; rewrite co_fcol; [reflexivity|]).
      - destruct (nth i l (One 0)); cbn in Hk; rewrite ?plus_length, ?fcol_length in Hk; exact Hk.
      - destruct (nth j l (One 0)); cbn in Hk; rewrite ?plus_length, ?fcol_length in Hk; exact Hk. }
    pose proof (C104_constructor fits r (length l) A' B' q Bd) as Q. destruct (root_datum fits q) as [d'|e] eqn:Ed; [|exact Q]. cbn. exists q. split; [exact Bd|exact Ed].
  - cbn in G |- *. apply G. apply Forall_forall. intros x Ix. apply (orbit_gens r n A B g pi l Hp Ol x Ix).
Qed.
(** in particular when the orbits are the computed ones *)
Theorem C133_computed (fits : Z -> bool) (r n : nat) (A B : nat -> nat -> Z) (p : predatum) (d : datum) (q : matrix Z) (g : nat -> nat -> Z) (pi : nat -> nat) : datum_of fits r n A B p d ->
  is_mx q r r g -> permutes_simple r n A B g pi -> involutive r g ->
  gives (run l <- fold_orbits fits d q; cofold fits d l) (fun d' => exists l p', orbits_of n pi (fun i j => pairings r A B i j = 0) l /\ Permutation (flat_map gens_of l) (seq 0 n) /\
    datum_of fits r (length l) (fun i j => co (orbit_root r (fcol r A) (nth j l (One 0))) i) (fun i j => co (orbit_coroot r (fcol r B) (nth j l (One 0))) i) p' d') (overflows fits).
Proof.
  intros K0 Hq Hp Hi. eapply gives_bind; [exact (C129_orbits fits r n A B p d q g pi K0 Hq Hp)|]. intros l (O & Pm). specialize (Pm Hi).
  assert (ND : NoDup l).
  { assert (N1 : NoDup (flat_map gens_of l)) by (apply (Permutation_NoDup (Permutation_sym Pm)); apply seq_NoDup). clear - N1. induction l as [|x l IH]; [constructor|]. cbn in N1.
    apply NoDup_app_iff' in N1 as (_ & N2 & N3). constructor; [|apply IH; exact N2]. intros I. destruct x as [a|a b|a b]; apply (N3 a); try (left; reflexivity); apply in_flat_map; (eexists; split; [exact I|left; reflexivity]). }
  eapply gives_mono; [exact (C133_fold fits r n A B p d g pi l K0 Hp Hi O ND)|]. intros d' (p' & H). exists l, p'. split; [exact O|]. split; [exact Pm|exact H].
Qed.
Example C133_ex : datum_of i32 4 3 (lA 4) (lA 4) (gl_pre 4) GL4 /\ is_mx (gl_rev 4) 4 4 (ent 4 (mdata (gl_rev 4))) /\
  permutes_simple 4 3 (lA 4) (lA 4) (ent 4 (mdata (gl_rev 4))) (fun i => 2 - i)%nat /\ involutive 4 (ent 4 (mdata (gl_rev 4))) /\
  fold_orbits i32 GL4 (gl_rev 4) = Ok [Two 0 2; One 1] /\ NoDup [Two 0 2; One 1] /\
  exists d', cofold i32 GL4 [Two 0 2; One 1] = Ok d' /\ has_root d' [1; 1; -1; -1] [1; 0; -1; 0] /\ has_root d' [1; 0; 0; -1] [2; -1; -1; 0].
Proof.
  split; [exact datum_gl4|]. split; [exact gl4_mx|]. split; [exact gl4_permutes|]. split; [exact gl4_inv|]. split; [vm_compute; reflexivity|]. split; [constructor; [intros [E|[]]; discriminate|constructor; [intros []|constructor]]|].
  eexists. split; [vm_compute; reflexivity|]. split.
  - exists 7%nat. split; [cbn; lia|split; vm_compute; reflexivity].
  - exists 6%nat. split; [cbn; lia|split; vm_compute; reflexivity].
Qed.

Print Assumptions C130_classification.
Print Assumptions C130_recognised.
Print Assumptions C131_simples.
Print Assumptions C131_type.
Print Assumptions C131_datum.
Print Assumptions C132_integral.
Print Assumptions C133_fold.
Print Assumptions C133_computed.
