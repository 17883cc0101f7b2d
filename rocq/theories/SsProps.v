(** C134-C137: subsystems of a root datum: their roots, the words for them, and the systems given by rational weights and
    by Weyl group elements. *)

From Coq Require Import List Arith ZArith Bool Lia Permutation Sorted.
From Verif Require Import VecModel VecProofs RunModel RunProofs MatModel MatSpec MatProofs MatLin MatOps MatProps LatModel SizeModel LieTypeModel LieTypeSpec DynkinModel
  RootModel RootSpec RootBase RootMath RootForm RootFin RootCo RootAcc RootSys RootUniq RootTop RootProps DatModel DatSpec DatMath DatProofs DatOps DatPre DatSub DatProps DatProps2
  DfModel DfSpec DfInt DfProps ClsMain ClsSub ClsProps SsModel SsPath SsProofs SsMove.
From Verif Require F2Solve.
Import ListNotations.
Local Open Scope Z_scope.

(** * C134: the roots of a subsystem *)
(** the pairings of the simple roots and coroots of the subsystem *)
Notation among n f s g := (fun i j => value n f (root_at s (nth i g 0%nat)) (coroot_at s (nth j g 0%nat))).
(** the base object is a root system for these pairings, and to_parent is an isomorphism to the members of the set *)
Definition same_system (n : nat) (d : datum) (S : bset) (g : list nat) (t : subsys) : Prop :=
  let s := d_sys d in let u := ss_sys t in let m := length g in
  (forall i, (i < num_roots u)%nat -> exists a, to_parent t i = Ok a /\ bmem S a = true /\ from_parent t a = Ok i /\
     root_at s a = comb n m (fun j => root_at s (nth j g 0%nat)) (root_at u i) /\ coroot_at s a = comb n m (fun j => coroot_at s (nth j g 0%nat)) (coroot_at u i) /\
     (num_pos u <= i <-> num_pos s <= a)%nat /\ to_parent t (minus_nr (num_pos u) i) = Ok (minus_nr (num_pos s) a)) /\
  (forall a, bmem S a = true -> exists i, (i < num_roots u)%nat /\ to_parent t i = Ok a) /\
  (forall a, bmem S a = false -> from_parent t a = Ok no_root) /\
  (forall i, (i < m)%nat -> to_parent t (num_pos u + i) = Ok (nth i g 0%nat)) /\
  (forall i j a b, (i < num_roots u)%nat -> (j < num_roots u)%nat -> to_parent t i = Ok a -> to_parent t j = Ok b ->
     exists k e, reflected u i j = Ok k /\ reflected s a b = Ok e /\ to_parent t k = Ok e).

Section Map.
Variables (n : nat) (f : nat -> nat -> Z) (c : matrix Z) (pc : bool) (s : rootsys).
Hypothesis bt : built n f c pc s.
Variable B : bset.
Hypothesis BL : length B = num_roots s.
Hypothesis BR : forall a b d, bmem B a = true -> bmem B b = true -> reflected s a b = Ok d -> bmem B d = true.
Variable l : list nat.
Hypothesis Bl : simple_basis s B = Ok l.
Notation m := (length l).
Notation G := (fun i j => value n f (sV s l i) (sW s l j)).
Variables (cm : matrix Z) (u : rootsys).
Hypothesis bt' : built m G cm pc u.
Variables (d : datum) (wh : bset) (pm im sm : list nat) (tw rw : list (list nat)).
Hypothesis Ed : d_sys d = s.
Hypothesis Rec : recorded n s B l u (num_pos u) (wh, pm).
Hypothesis Sto : forall k, (k < num_pos u)%nat -> stored n f s u wh pm im sm tw rw k.
Hypothesis Lim : length im = num_pos u.
Notation t := (mk_subsys u d wh pm im sm tw rw).
Notation np := (num_pos s).
Notation nq := (num_pos u).

Lemma to_run i : (i < num_roots u)%nat -> exists a, to_parent t i = Ok a /\ over n s B l u i a.
Proof.
  intros Hi. pose proof Rec as (Lp & _ & Ho & _). unfold to_parent, abs_nr, is_pos. cbn [ss_sys ss_par ss_pos]. rewrite Ed. destruct (Nat.leb_spec nq i) as [P|P].
  - rewrite vget_nth by (unfold num_roots in *; lia). cbn [bind]. eexists. split; [reflexivity|]. replace i with (nq + (i - nq))%nat at 1 by lia. apply Ho. unfold num_roots in *. lia.
  - rewrite vget_nth by lia. cbn [bind]. eexists. split; [reflexivity|].
    pose proof (over_minus n f c pc s bt B BL BR l cm u bt' (nq + (nq - 1 - i)) _ ltac:(unfold num_roots; lia) (Ho (nq - 1 - i)%nat ltac:(lia))) as O. replace i with (minus_nr nq (nq + (nq - 1 - i))) at 1 by (unfold minus_nr; lia). exact O.
Qed.
Lemma to_fun i a : (i < num_roots u)%nat -> over n s B l u i a -> to_parent t i = Ok a.
Proof. intros Hi O. destruct (to_run i Hi) as (b & -> & O'). f_equal. apply (over_fun n f c pc s bt B BL l u i b a O' O). Qed.
Lemma wh_mem a : (np <= a)%nat -> (bmem wh (a - np) = true <-> bmem B a = true).
Proof.
  intros P. pose proof Rec as (Lp & Lw & Ho & Hm). rewrite Hm. replace (np + (a - np))%nat with a by lia. split.
  - intros I. destruct (In_nth _ _ 0%nat I) as (k & Hk & <-). apply (Ho k). lia.
  - intros M. destruct (over_onto n f c pc s bt B BL BR l Bl cm u bt' a M) as (i & Hi & O). pose proof (proj2 (over_sign n f c pc s bt B BL BR l Bl cm u bt' i a Hi O) P) as Pi.
    pose proof (Ho (i - nq)%nat ltac:(unfold num_roots in *; lia)) as O2. replace (nq + (i - nq))%nat with i in O2 by lia. rewrite (over_fun n f c pc s bt B BL l u i a _ O O2). apply nth_In. unfold num_roots in *. lia.
Qed.
Lemma from_run i a : (i < num_roots u)%nat -> over n s B l u i a -> from_parent t a = Ok i.
Proof.
  intros Hi O. pose proof (over_lt n f c pc s bt B BL l u i a O) as La. pose proof Rec as (Lp & Lw & Ho & Hm). pose proof (over_sign n f c pc s bt B BL BR l Bl cm u bt' i a Hi O) as Sg.
  unfold from_parent. cbn [ss_sys ss_par ss_which ss_inv]. rewrite Ed. cbv zeta. unfold abs_nr, is_pos. destruct (Nat.leb_spec np a) as [P|P].
  - pose proof (proj2 Sg P) as Pi. set (k := (i - nq)%nat). assert (Hk : (k < nq)%nat) by (unfold k, num_roots in *; lia). pose proof (Ho k Hk) as O2. replace (nq + k)%nat with i in O2 by (unfold k; lia).
    pose proof (over_fun n f c pc s bt B BL l u i a _ O O2) as Ea. rewrite (proj2 (Nat.ltb_lt (a - np) np)) by (unfold num_roots in *; lia). rewrite (proj2 (wh_mem a P) (proj1 O)). cbn [andb].
    destruct (recorded_place n f c pc s bt B BL BR l Bl cm u bt' wh pm k Rec Hk) as (_ & _ & Pl). rewrite Ea. rewrite vget_nth by lia. cbn [bind]. rewrite (proj1 (Sto k Hk)). f_equal. unfold k. lia.
  - assert (Pi : (i < nq)%nat) by (destruct (le_lt_dec nq i) as [Q|Q]; [apply Sg in Q; lia|exact Q]). set (k := (nq - 1 - i)%nat). assert (Hk : (k < nq)%nat) by (unfold k; lia). pose proof (Ho k Hk) as O2.
    pose proof (over_minus n f c pc s bt B BL BR l cm u bt' i a Hi O) as O3. replace (minus_nr nq i) with (nq + k)%nat in O3 by (unfold k, minus_nr; lia). pose proof (over_fun n f c pc s bt B BL l u _ _ _ O3 O2) as Ea.
    assert (Ea' : (np - 1 - a)%nat = (nth k pm 0 - np)%nat) by (rewrite <- Ea; unfold minus_nr; lia). rewrite (proj2 (Nat.ltb_lt (np - 1 - a) np)) by lia.
    destruct (recorded_place n f c pc s bt B BL BR l Bl cm u bt' wh pm k Rec Hk) as (_ & Mk & Pl). rewrite Ea', Mk. cbn [andb]. rewrite vget_nth by lia. cbn [bind]. rewrite (proj1 (Sto k Hk)). f_equal. unfold k, minus_nr. lia.
Qed.
Lemma from_not a : bmem B a = false -> from_parent t a = Ok no_root.
Proof.
  intros M. unfold from_parent. cbn [ss_sys ss_par ss_which ss_inv]. rewrite Ed. cbv zeta. unfold abs_nr, is_pos. pose proof Rec as (Lp & Lw & Ho & Hm). destruct (Nat.leb_spec np a) as [P|P].
  - destruct (Nat.ltb_spec (a - np) np) as [Q|Q]; [|reflexivity]. destruct (bmem wh (a - np)) eqn:E; [|reflexivity]. apply wh_mem in E; [congruence|exact P].
  - destruct (Nat.ltb_spec (np - 1 - a) np) as [Q|Q]; [|reflexivity]. destruct (bmem wh (np - 1 - a)) eqn:E; [|reflexivity]. exfalso. replace (np - 1 - a)%nat with (minus_nr np a - np)%nat in E by (unfold minus_nr; lia).
    apply wh_mem in E; [|unfold minus_nr; lia]. pose proof (DatGens.g_minus n f c pc s bt B BL BR _ E) as E2. replace (minus_nr np (minus_nr np a)) with a in E2 by (unfold minus_nr; lia). congruence.
Qed.
Lemma map_same : same_system n d B l t.
Proof.
  unfold same_system. cbv zeta. cbn [ss_sys]. rewrite Ed. split; [|split; [|split; [|split]]].
  - intros i Hi. destruct (to_run i Hi) as (a & Ea & O). exists a. split; [exact Ea|]. split; [apply O|]. split; [exact (from_run i a Hi O)|]. split; [apply O|]. split; [apply O|].
    split; [exact (over_sign n f c pc s bt B BL BR l Bl cm u bt' i a Hi O)|]. apply to_fun; [unfold num_roots, minus_nr in *; lia|]. exact (over_minus n f c pc s bt B BL BR l cm u bt' i a Hi O).
  - intros a M. destruct (over_onto n f c pc s bt B BL BR l Bl cm u bt' a M) as (i & Hi & O). exists i. split; [exact Hi|]. apply to_fun; assumption.
  - exact from_not.
  - intros i Hi. pose proof (m_nq n f c pc s bt B BL l cm u bt'). apply to_fun; [unfold num_roots; lia|]. exact (over_simple n f c pc s bt B BL BR l Bl cm u bt' i Hi).
  - intros i j a b Hi Hj Ea Eb. destruct (to_run i Hi) as (a' & Ea' & Oa). destruct (to_run j Hj) as (b' & Eb' & Ob). rewrite Ea in Ea'. rewrite Eb in Eb'. injection Ea' as <-. injection Eb' as <-.
    destruct (over_reflected n f c pc s bt B BL BR l cm u bt' i j a b Hi Hj Oa Ob) as (k & e & Ek & Ee & Hk & O). exists k, e. split; [exact Ek|]. split; [exact Ee|]. apply to_fun; assumption.
Qed.
End Map.
Lemma whole fits r n A B p d S g : datum_of fits r n A B p d -> subsystem_of d S g -> exists c cm u wh pm im sm tw rw,
  built n (pairings r A B) c (p_prefer p) (d_sys d) /\ Cartan_of (d_sys d) g = Ok cm /\
  built (length g) (fun i j => value n (pairings r A B) (sV (d_sys d) g i) (sW (d_sys d) g j)) cm (p_prefer p) u /\ subsystem d g = Ok (mk_subsys u d wh pm im sm tw rw) /\
  recorded n (d_sys d) S g u (num_pos u) (wh, pm) /\ length im = num_pos u /\ length sm = num_pos u /\ length tw = num_pos u /\ length rw = num_pos u /\
  forall k, (k < num_pos u)%nat -> stored n (pairings r A B) (d_sys d) u wh pm im sm tw rw k.
Proof.
  intros K0 (SL & SR & Sg). pose proof (datum_of_ok _ _ _ _ _ _ _ K0) as K. destruct (k_sys _ _ _ _ _ _ K) as [c Bt]. pose proof Bt as (n32 & ft & mc & made).
  destruct (C131_simples n _ c _ (d_sys d) S g Bt SL SR Sg) as [Lm Fm].
  assert (Fg : Forall (fun a => (a < num_roots (d_sys d))%nat) g).
  { apply Forall_forall. intros a Ia. destruct (In_nth _ _ 0%nat Ia) as (i & Hi & <-). apply (l_at n _ c _ (d_sys d) Bt S SL SR g Sg i Hi). }
  destruct (top_Cartan n _ c _ (d_sys d) n32 ft mc made g Fg) as (cm & Ec & Hc). destruct (root_system_ok (length g) _ cm (p_prefer p) ltac:(lia) Fm Hc) as (u & Eu & _).
  assert (Bu : built (length g) (fun i j => value n (pairings r A B) (sV (d_sys d) g i) (sW (d_sys d) g j)) cm (p_prefer p) u) by (split; [lia|]; split; [exact Fm|]; split; [exact Hc|exact Eu]).
  destruct (subsystem_run n _ c _ (d_sys d) Bt S SL SR g Sg cm u Bu d eq_refl Ec) as (wh & pm & im & sm & tw & rw & Q). exists c, cm, u, wh, pm, im, sm, tw, rw. split; [exact Bt|]. split; [exact Ec|]. split; [exact Bu|exact Q].
Qed.
(** the constructor succeeds; its base object is the root system of the pairings of the simple roots of the subsystem, with
    the order of roots of the parent *)
Theorem C134_roots (fits : Z -> bool) (r n : nat) (A B : nat -> nat -> Z) (p : predatum) (d : datum) (S : bset) (g : list nat) : datum_of fits r n A B p d -> subsystem_of d S g ->
  exists t cm, subsystem d g = Ok t /\ ss_par t = d /\ built (length g) (among n (pairings r A B) (d_sys d) g) cm (p_prefer p) (ss_sys t) /\ same_system n d S g t.
Proof.
  intros K0 So. destruct (whole fits r n A B p d S g K0 So) as (c & cm & u & wh & pm & im & sm & tw & rw & Bt & Ec & Bu & E & Rec & L1 & L2 & L3 & L4 & Sto). pose proof So as (SL & SR & Sg).
  eexists. exists cm. split; [exact E|]. split; [reflexivity|]. split; [exact Bu|]. exact (map_same n _ c _ (d_sys d) Bt S SL SR g Sg cm u Bu d wh pm im sm tw rw eq_refl Rec Sto L1).
Qed.
(** in terms of the lattices: root [i] of the subsystem has the same coefficients as its image *)
Theorem C134_lattice (fits : Z -> bool) (r n : nat) (A B : nat -> nat -> Z) (p : predatum) (d : datum) (S : bset) (g : list nat) (t : subsys) (i a : nat) : datum_of fits r n A B p d -> subsystem_of d S g ->
  subsystem d g = Ok t -> (i < num_roots (ss_sys t))%nat -> to_parent t i = Ok a ->
  d_root d a = Ok (comb r (length g) (listed_roots r n A d g) (root_at (ss_sys t) i)) /\ d_coroot d a = Ok (comb r (length g) (listed_coroots r n B d g) (coroot_at (ss_sys t) i)).
Proof.
  intros K0 So E Hi Ea. pose proof (datum_of_ok _ _ _ _ _ _ _ K0) as K. destruct (k_sys _ _ _ _ _ _ K) as [c Bt]. destruct (C134_roots fits r n A B p d S g K0 So) as (t' & cm & E' & _ & _ & (H & _)). rewrite E in E'. injection E' as <-.
  destruct (H i Hi) as (a' & Ea' & M & _ & R1 & R2 & _). rewrite Ea in Ea'. injection Ea' as <-. pose proof (DatGens.g_lt n _ c _ (d_sys d) Bt S (proj1 So) a M) as Ha. destruct (d_root_run r n A B p d K a Ha) as [-> ->].
  rewrite R1, R2, !comb_comb. split; reflexivity.
Qed.
Definition Dlong : subsys := match subsystem D [5; 7]%nat with Ok t => t | _ => mk_subsys (d_sys D) D [] [] [] [] [] [] end.
Lemma Dlong_ok : subsystem D [5; 7]%nat = Ok Dlong. Proof. vm_compute. reflexivity. Qed.
Example C134_ex : datum_of i32 3 2 gA gB gsp D /\ subsystem_of D long_set [5; 7]%nat /\ subsystem D [5; 7]%nat = Ok Dlong /\ num_roots (ss_sys Dlong) = 4%nat /\ ss_pos Dlong = [5; 7]%nat /\
  map (to_parent Dlong) [0; 1; 2; 3]%nat = [Ok 0; Ok 2; Ok 5; Ok 7]%nat /\ map (from_parent Dlong) [0; 2; 5; 7]%nat = [Ok 0; Ok 1; Ok 2; Ok 3]%nat /\
  map (from_parent Dlong) [1; 3; 4; 6; 8]%nat = repeat (Ok no_root) 5.
Proof. split; [apply datum_gsp|]. split; [exact long_ok|]. split; [exact Dlong_ok|]. split; [vm_compute; reflexivity|]. split; [vm_compute; reflexivity|]. split; [vm_compute; reflexivity|]. split; [vm_compute; reflexivity|].
  cbn [map repeat]. unfold from_parent. cbv zeta. repeat match goal with |- context [if ?b then _ else Ok no_root] => replace b with false by (vm_compute; reflexivity) end. reflexivity.
Qed.

(** * C135: the words stored *)
(** for each positive root of the subsystem: a word that takes its image in the parent to a simple root of the parent,
    the number of that simple root, and the word conjugated by it, which acts as the reflection in the root *)
Theorem C135_words (fits : Z -> bool) (r n : nat) (A B : nat -> nat -> Z) (p : predatum) (d : datum) (S : bset) (g : list nat) (t : subsys) (k a : nat) : datum_of fits r n A B p d -> subsystem_of d S g ->
  subsystem d g = Ok t -> (k < num_pos (ss_sys t))%nat -> to_parent t (num_pos (ss_sys t) + k) = Ok a ->
  exists i w rho x y, vget (ss_simple t) k = Ok i /\ vget (ss_to t) k = Ok w /\ vget (ss_refl t) k = Ok rho /\ d_root d a = Ok x /\ d_coroot d a = Ok y /\
    (i < n)%nat /\ word n w /\ act_by r (fcol r A) (fcol r B) w x = fcol r A i /\ act_by r (fcol r B) (fcol r A) w y = fcol r B i /\
    rho = rev w ++ [i] ++ w /\ forall v, length v = r -> act_by r (fcol r A) (fcol r B) rho v = reflect_at r x y v.
Proof.
  intros K0 So E Hk Ea. pose proof (datum_of_ok _ _ _ _ _ _ _ K0) as K. destruct (whole fits r n A B p d S g K0 So) as (c & cm & u & wh & pm & im & sm & tw & rw & Bt & Ec & Bu & E' & Rec & L1 & L2 & L3 & L4 & Sto).
  rewrite E in E'. injection E' as ->. cbn [ss_sys ss_simple ss_to ss_refl] in *. pose proof So as (SL & SR & Sg). pose proof (k_good _ _ _ _ _ _ K) as [gd gd'].
  assert (Ea' : a = nth k pm 0%nat). { unfold to_parent, abs_nr, is_pos in Ea. cbn [ss_sys ss_pos ss_par] in Ea. rewrite (proj2 (Nat.leb_le _ (num_pos u + k)%nat)) in Ea by lia. rewrite vget_nth in Ea by (destruct Rec; lia). cbn [bind] in Ea. injection Ea as <-. f_equal. lia. }
  destruct (recorded_place n _ c _ (d_sys d) Bt S SL SR g Sg cm u Bu wh pm k Rec Hk) as (Pa & _). rewrite <- Ea' in Pa. destruct (Sto k Hk) as (_ & w & Pw & Et & Er). rewrite <- Ea' in Pw. set (i := nth k sm 0%nat) in *.
  destruct (path_letters n _ c _ (d_sys d) Bt a w i Pw) as (Fw & Hi & _). destruct (path_word n _ c _ (d_sys d) Bt a w i Pw) as (Ex & Ey). destruct (d_root_run r n A B p d K a (proj2 Pa)) as [Dx Dy].
  assert (FA : forall j, (j < n)%nat -> length (fcol r A j) = r) by (intros; apply fcol_length). assert (FB : forall j, (j < n)%nat -> length (fcol r B j) = r) by (intros; apply fcol_length).
  assert (HC : forall i j, (i < n)%nat -> (j < n)%nat -> dot r (fcol r A i) (fcol r B j) = pairings r A B i j) by reflexivity.
  assert (HC' : forall i j, (i < n)%nat -> (j < n)%nat -> dot r (fcol r B i) (fcol r A j) = flip (pairings r A B) i j) by (intros; apply dot_comm).
  exists i, (rev w), (w ++ [i] ++ rev w), (comb r n (fcol r A) (root_at (d_sys d) a)), (comb r n (fcol r B) (coroot_at (d_sys d) a)).
  split; [apply vget_nth; lia|]. split; [rewrite <- Et; apply vget_ok; apply nth_error_nth'; lia|]. split; [rewrite <- Er; apply vget_ok; apply nth_error_nth'; lia|]. split; [exact Dx|]. split; [exact Dy|]. split; [exact Hi|].
  split; [apply Forall_rev; exact Fw|]. split; [|split; [|split]].
  - rewrite Ex, (emb_act r n (fcol r A) (fcol r B) (pairings r A B) FA HC) by (try exact Fw; apply basis_length). rewrite comb_basis by auto. apply (rev_act r n (fcol r A) (fcol r B) (pairings r A B)); auto.
  - rewrite Ey, (coemb_act r n (fcol r A) (fcol r B) (pairings r A B) FB HC) by (try exact Fw; apply basis_length). rewrite comb_basis by auto. apply (rev_act r n (fcol r B) (fcol r A) (flip (pairings r A B))); auto.
  - rewrite rev_involutive. reflexivity.
  - intros v Lv. rewrite Ex, Ey, (rfl_word r n (fcol r A) (fcol r B) (pairings r A B)) by auto. rewrite !act_app. reflexivity.
Qed.

(** * C136: integral systems, singular generators, sets of roots *)
(** the members of the system of a rational weight v/m are the roots whose coroot has an integral value *)
Theorem C136_integral (fits : Z -> bool) (r n : nat) (A B : nat -> nat -> Z) (p : predatum) (d : datum) (v : list Z) (m : Z) : datum_of fits r n A B p d -> length v = r -> 0 < m ->
  gives (integral fits d v m) (fun t => exists S g, subsystem_of d S g /\ subsystem d g = Ok t /\
    forall a, bmem S a = true <-> (a < num_roots (d_sys d))%nat /\ exists y, d_coroot d a = Ok y /\ (m | dot r v y)) (overflows fits).
Proof.
  intros K0 L P. pose proof (datum_of_ok _ _ _ _ _ _ _ K0) as K. destruct (k_sys _ _ _ _ _ _ K) as [c (n32 & ft & mc & made)]. unfold integral.
  eapply gives_bind; [exact (poscoroots_run fits r n A B p d K v m L P)|]. intros ps (Lp & Hp).
  assert (CL : forall a b e, bmem (integrals r n B d v m) a = true -> bmem (integrals r n B d v m) b = true -> reflected (d_sys d) a b = Ok e -> bmem (integrals r n B d v m) e = true) by exact (integrals_closed fits r n A B p d K v m L P).
  assert (LI : length (integrals r n B d v m) = num_roots (d_sys d)) by apply integrals_length.
  rewrite (top_pos_simples n _ c _ (d_sys d) n32 ft mc made (integrals r n B d v m) LI CL ps Lp).
  - destruct (top_basis n _ c _ (d_sys d) n32 ft mc made (integrals r n B d v m) LI CL) as (g & Eg & _). rewrite Eg. cbn [bind].
    assert (So : subsystem_of d (integrals r n B d v m) g) by (split; [exact LI|]; split; [exact CL|exact Eg]).
    destruct (C134_roots fits r n A B p d _ g K0 So) as (t & _ & Et & _). rewrite Et. cbn. exists (integrals r n B d v m), g. split; [exact So|]. split; [exact Et|]. intros a. rewrite (integrals_in fits r n B d v m L P a). split.
    + intros [Ha Da]. split; [exact Ha|]. eexists. split; [apply (d_root_run r n A B p d K a Ha)|exact Da].
    + intros (Ha & y & Ey & Dy). split; [exact Ha|]. rewrite (proj2 (d_root_run r n A B p d K a Ha)) in Ey. injection Ey as <-. exact Dy.
  - intros k Hk. apply eq_true_iff_eq. rewrite (Hp k Hk), (integrals_in fits r n B d v m L P). split; [intros Q; split; [unfold num_roots; lia|exact Q]|tauto].
Qed.
Lemma pos_first fits r n A B p d S g t : datum_of fits r n A B p d -> subsystem_of d S g -> subsystem d g = Ok t ->
  ss_par t = d /\ s_rank (ss_sys t) = length g /\ s_prefer (ss_sys t) = p_prefer p /\ firstn (length g) (ss_pos t) = g /\ (length g <= length (ss_pos t))%nat /\
  (forall j, (j < length g)%nat -> vget (ss_pos t) j = Ok (nth j g 0%nat) /\ (num_pos (d_sys d) <= nth j g 0 < num_roots (d_sys d))%nat) /\
  (forall a, In a (ss_pos t) <-> bmem S a = true /\ (num_pos (d_sys d) <= a)%nat).
Proof.
  intros K0 So E. destruct (whole fits r n A B p d S g K0 So) as (c & cm & u & wh & pm & im & sm & tw & rw & Bt & Ec & Bu & E' & Rec & L1 & L2 & L3 & L4 & Sto). rewrite E in E'. injection E' as ->. pose proof So as (SL & SR & Sg). cbn [ss_par ss_sys ss_pos].
  pose proof Bu as (n32 & ft & mc & made). destruct (top_system _ _ cm _ u n32 ft mc made) as (Y & Pf & _). pose proof Rec as (Lp & _ & Ho & _). pose proof (m_nq n _ c _ (d_sys d) Bt S SL g cm u Bu) as Lm.
  assert (Q : forall j, (j < length g)%nat -> nth j pm 0%nat = nth j g 0%nat).
  { intros j Hj. apply (over_fun n _ c _ (d_sys d) Bt S SL g u (num_pos u + j)); [apply Ho; lia|]. exact (over_simple n _ c _ (d_sys d) Bt S SL SR g Sg cm u Bu j Hj). }
  split; [reflexivity|]. split; [apply (y_rank _ _ _ Y)|]. split; [exact Pf|]. split; [|split; [lia|split]].
  - apply nth_ext with (d := 0%nat) (d' := 0%nat); [rewrite firstn_length; lia|]. intros j Hj. rewrite firstn_length in Hj. rewrite <- Q by lia. rewrite <- (firstn_skipn (length g) pm) at 2. rewrite app_nth1 by (rewrite firstn_length; lia). reflexivity.
  - intros j Hj. rewrite <- (Q j Hj). split; [apply vget_nth; lia|]. rewrite (Q j Hj). apply (l_at n _ c _ (d_sys d) Bt S SL SR g Sg j Hj).
  - intros a. split.
    + intros I. destruct (In_nth _ _ 0%nat I) as (k & Hk & <-). destruct (recorded_place n _ c _ (d_sys d) Bt S SL SR g Sg cm u Bu wh pm k Rec ltac:(lia)) as (P & _). split; [apply (Ho k); lia|lia].
    + intros [M P]. pose proof (proj2 (wh_mem n _ c _ (d_sys d) Bt S SL SR g Sg cm u Bu wh pm im Rec L1 a P) M) as W. destruct Rec as (_ & _ & _ & Hm). apply Hm in W. replace (num_pos (d_sys d) + (a - num_pos (d_sys d)))%nat with a in W by lia. exact W.
Qed.
(** the simple roots of the subsystem whose coroot vanishes at the weight *)
Theorem C136_singular (fits : Z -> bool) (r n : nat) (A B : nat -> nat -> Z) (p : predatum) (d : datum) (S : bset) (g : list nat) (t : subsys) (v : list Z) : datum_of fits r n A B p d -> subsystem_of d S g ->
  subsystem d g = Ok t -> length v = r ->
  gives (sub_singular fits t v) (fun b => length b = length g /\ forall i, (i < length g)%nat -> (bmem b i = true <-> dot r v (listed_coroots r n B d g i) = 0)) (overflows fits).
Proof.
  intros K0 So E L. pose proof (datum_of_ok _ _ _ _ _ _ _ K0) as K. destruct (pos_first fits r n A B p d S g t K0 So E) as (Ed & Er & _ & _ & _ & Hj & _). unfold sub_singular. rewrite Er, Ed.
  apply (gives_upto0 (fun k b => length b = k /\ forall i, (i < k)%nat -> (bmem b i = true <-> dot r v (listed_coroots r n B d g i) = 0))).
  - split; [reflexivity|]. intros; lia.
  - intros k b Hk (Lb & Hb). destruct (Hj k Hk) as (-> & Pk). cbn [bind]. rewrite (proj2 (d_root_run r n A B p d K _ (proj2 Pk))). cbn [bind].
    eapply gives_bind; [apply (dot_run fits r); [apply comb_length|exact L]|]. intros z <-. apply gives_ok. split; [rewrite app_length; cbn; lia|]. intros i Hi. unfold bmem in *. destruct (Nat.eq_dec i k) as [->|N].
    + rewrite app_nth2 by lia. rewrite Lb, Nat.sub_diag. cbn [nth]. rewrite Z.eqb_eq, dot_comm. reflexivity.
    + rewrite app_nth1 by lia. apply Hb. lia.
  - auto.
Qed.
Lemma set_run k l : Forall (fun a => (a < k)%nat) l -> exists b, set_of k l = Ok b /\ length b = k /\ forall a, bmem b a = true <-> In a l.
Proof.
  intros F. unfold set_of. apply gives_none. rewrite Forall_forall in F. apply (gives_upto0 (fun i b => length b = k /\ forall a, bmem b a = true <-> In a (firstn i l))).
  - split; [apply repeat_length|]. intros a. unfold bmem. rewrite nth_repeat. cbn. split; [discriminate|tauto].
  - intros i b Hi (Lb & Hb). rewrite (vget_nth l i Hi). cbn [bind]. destruct (bins_run b (nth i l 0%nat)) as (b' & -> & L' & M); [rewrite Lb; apply F; apply nth_In; exact Hi|]. cbn [gives]. split; [lia|]. intros a. rewrite M, orb_true_iff, Hb, Nat.eqb_eq.
    rewrite (F2Solve.firstn_S l i (nth i l 0%nat)) by (apply nth_error_nth'; exact Hi). rewrite in_app_iff. cbn [In]. split; [intros [->|I]; auto|intros [I|[<-|[]]]; auto].
  - intros b. rewrite firstn_all. auto.
Qed.
(** the sets of simple and of positive roots *)
Theorem C136_sets (fits : Z -> bool) (r n : nat) (A B : nat -> nat -> Z) (p : predatum) (d : datum) (S : bset) (g : list nat) (t : subsys) : datum_of fits r n A B p d -> subsystem_of d S g ->
  subsystem d g = Ok t -> exists b1 b2, sub_simple_roots t = Ok b1 /\ sub_positive_roots t = Ok b2 /\ length b1 = num_roots (d_sys d) /\ length b2 = num_roots (d_sys d) /\
    (forall a, bmem b1 a = true <-> In a g) /\ (forall a, bmem b2 a = true <-> bmem S a = true /\ (num_pos (d_sys d) <= a)%nat).
Proof.
  intros K0 So E. pose proof (datum_of_ok _ _ _ _ _ _ _ K0) as K. destruct (k_sys _ _ _ _ _ _ K) as [c Bt]. destruct (pos_first fits r n A B p d S g t K0 So E) as (Ed & Er & _ & Fg & _ & Hj & Hm). unfold sub_simple_roots, sub_positive_roots. rewrite Ed, Er, Fg.
  destruct (set_run (num_roots (d_sys d)) g) as (b1 & E1 & L1 & M1).
  { apply Forall_forall. intros a Ia. destruct (In_nth _ _ 0%nat Ia) as (i & Hi & <-). apply (Hj i Hi). }
  destruct (set_run (num_roots (d_sys d)) (ss_pos t)) as (b2 & E2 & L2 & M2).
  { apply Forall_forall. intros a Ia. apply Hm in Ia. apply (DatGens.g_lt n _ c _ (d_sys d) Bt S (proj1 So) a). apply Ia. }
  exists b1, b2. do 4 (split; [assumption|]). split; [exact M1|]. intros a. rewrite M2. apply Hm.
Qed.
(** the simple roots and coroots given by pre_root_datum are those of the subsystem; the order of roots is the other one *)
Theorem C136_predatum (fits : Z -> bool) (r n : nat) (A B : nat -> nat -> Z) (p : predatum) (d : datum) (S : bset) (g : list nat) (t : subsys) : datum_of fits r n A B p d -> subsystem_of d S g ->
  subsystem d g = Ok t -> exists q, sub_pre t = Ok q /\ based r (length g) (fun i j => co (listed_roots r n A d g j) i) (fun i j => co (listed_coroots r n B d g j) i) q /\ p_prefer q = negb (p_prefer p).
Proof.
  intros K0 So E. destruct (pos_first fits r n A B p d S g t K0 So E) as (Ed & Er & Pf & Fg & _ & Hj & _). destruct (C131_datum fits r n A B p d S g K0 So) as (q & Eq & Pq & Bd & _).
  exists (mk_pre (p_roots q) (p_coroots q) (negb (p_prefer p))). split; [|split; [exact Bd|reflexivity]]. unfold sub_predatum in Eq. unfold sub_pre. cbv zeta in *. rewrite Ed, Er, Pf.
  assert (U : forall k from q0, (from + k <= length g)%nat ->
    upto k from (fun j '(M, K) => run a <- vget (ss_pos t) j; run x <- d_root d a; run M1 <- set_column M j x; run y <- d_coroot d a; run K1 <- set_column K j y; Ok (M1, K1)) q0 =
    upto k from (fun j '(M, K) => run a <- vget g j; run x <- d_root d a; run M1 <- set_column M j x; run y <- d_coroot d a; run K1 <- set_column K j y; Ok (M1, K1)) q0).
  { induction k as [|k IH]; intros from q0 Hf; [reflexivity|]. cbn [upto]. destruct q0 as [M K1]. rewrite (proj1 (Hj from ltac:(lia))), (vget_nth g from) by lia.
    match goal with |- bind ?m _ = bind ?m _ => destruct m as [q1|e] end; [|reflexivity]. cbn [bind]. apply IH. lia. }
  rewrite U by lia. match type of Eq with bind ?m _ = _ => destruct m as [[M K1]|e] end; [|discriminate]. cbn [bind] in *. injection Eq as <-. reflexivity.
Qed.
(** so the roots of the datum that is made from it may be numbered otherwise than those of the subsystem: for GSp(4) as a
    subsystem of itself the two highest roots are interchanged *)
Lemma all_ok : subsystem_of D (repeat true 8) [4; 5]%nat.
Proof.
  split; [reflexivity|]. split; [|vm_compute; reflexivity]. intros a b c Ha Hb.
  do 8 (destruct a as [|a]; [do 8 (destruct b as [|b]; [vm_compute; intros Q; injection Q as <-; reflexivity|]); destruct b; discriminate Hb|]). destruct a; discriminate Ha.
Qed.
Theorem C136_numbering_refuted : exists t q d' a x y, datum_of i32 3 2 gA gB gsp D /\ subsystem_of D (repeat true 8) [4; 5]%nat /\ subsystem D [4; 5]%nat = Ok t /\ sub_pre t = Ok q /\ root_datum i32 q = Ok d' /\
  num_roots (d_sys d') = num_roots (ss_sys t) /\ to_parent t 7 = Ok a /\ d_root D a = Ok x /\ d_root d' 7 = Ok y /\ x <> y.
Proof.
  destruct (C134_roots i32 3 2 gA gB gsp D (repeat true 8) [4; 5]%nat (proj1 datum_gsp) all_ok) as (t & cm & E & _). exists t.
  assert (Et : Ok t = subsystem D [4; 5]%nat) by (symmetry; exact E). vm_compute in Et. injection Et as ->. eexists. eexists. exists 7%nat, [2; 0; -1], [1; 1; -1].
  split; [apply datum_gsp|]. split; [exact all_ok|]. split; [vm_compute; reflexivity|]. split; [vm_compute; reflexivity|]. split; [vm_compute; reflexivity|]. split; [vm_compute; reflexivity|]. split; [vm_compute; reflexivity|].
  split; [vm_compute; reflexivity|]. split; [vm_compute; reflexivity|discriminate].
Qed.
Definition Dhalf : subsys := match integral i32 D [1; 1; 0] 2 with Ok t => t | _ => Dlong end.
Example C135_ex : datum_of i32 3 2 gA gB gsp D /\ subsystem_of D long_set [5; 7]%nat /\ subsystem D [5; 7]%nat = Ok Dlong /\ to_parent Dlong 3 = Ok 7%nat /\
  ss_simple Dlong = [1; 1]%nat /\ ss_to Dlong = [[]; [0]]%nat /\ ss_refl Dlong = [[1]; [0; 1; 0]]%nat.
Proof. split; [apply datum_gsp|]. split; [exact long_ok|]. split; [exact Dlong_ok|]. split; [vm_compute; reflexivity|]. split; [vm_compute; reflexivity|]. split; vm_compute; reflexivity. Qed.
Example C136_ex : datum_of i32 3 2 gA gB gsp D /\ integral i32 D [1; 1; 0] 2 = Ok Dhalf /\ ss_pos Dhalf = [4; 6]%nat /\
  subsystem_of D long_set [5; 7]%nat /\ subsystem D [5; 7]%nat = Ok Dlong /\ sub_singular i32 Dlong [0; 3; 1] = Ok [false; true] /\
  sub_simple_roots Dlong = Ok [false; false; false; false; false; true; false; true] /\ sub_positive_roots Dlong = Ok [false; false; false; false; false; true; false; true] /\
  exists q, sub_pre Dlong = Ok q /\ p_roots q = mk_mat 3 2 [0; 2; 2; 0; -1; -1] /\ p_prefer q = true.
Proof.
  split; [apply datum_gsp|]. split; [vm_compute; reflexivity|]. split; [vm_compute; reflexivity|]. split; [exact long_ok|]. split; [exact Dlong_ok|]. split; [vm_compute; reflexivity|]. split; [vm_compute; reflexivity|]. split; [vm_compute; reflexivity|].
  eexists. split; [vm_compute; reflexivity|]. split; reflexivity.
Qed.

(** * C137: the system moved by a Weyl group element *)
(** the images of the simple roots of the subsystem, in increasing order *)
Theorem C137_images (fits : Z -> bool) (r n : nat) (A B : nat -> nat -> Z) (p : predatum) (d : datum) (S : bset) (g : list nat) (t : subsys) (ww : list nat) : datum_of fits r n A B p d -> subsystem_of d S g ->
  subsystem d g = Ok t -> word n ww -> exists l, image_simples t ww = Ok l /\ StronglySorted le l /\ Permutation (map Ok l) (map (permuted_left (d_sys d) ww) g).
Proof.
  intros K0 So E W. pose proof (datum_of_ok _ _ _ _ _ _ _ K0) as K. destruct (k_sys _ _ _ _ _ _ K) as [c Bt]. destruct (pos_first fits r n A B p d S g t K0 So E) as (Ed & Er & _ & _ & _ & Hj & _).
  assert (Q : exists l, upto (length g) 0 (fun s0 l => run a <- vget (ss_pos t) s0; run b <- permuted_left (d_sys d) ww a; Ok (l ++ [b])) [] = Ok l /\ map Ok l = map (permuted_left (d_sys d) ww) g).
  { apply gives_none. apply (gives_upto0 (fun i l => map Ok l = map (permuted_left (d_sys d) ww) (firstn i g))).
    - reflexivity.
    - intros i l Hi El. destruct (Hj i Hi) as (-> & P). cbn [bind]. rewrite (perm_mv n _ c _ (d_sys d) Bt ww W) by lia. cbn [bind gives]. rewrite (F2Solve.firstn_S g i (nth i g 0%nat)) by (apply nth_error_nth'; exact Hi).
      rewrite !map_app, El. cbn [map]. rewrite (perm_mv n _ c _ (d_sys d) Bt ww W) by lia. reflexivity.
    - intros l. rewrite firstn_all. auto. }
  destruct Q as (l & El & Ml). unfold image_simples. rewrite Er, Ed, El. cbn [bind]. exists (sort_list l). split; [reflexivity|]. split; [apply sort_sorted|]. rewrite <- Ml. apply Permutation_map. apply sort_perm.
Qed.
(** [T] consists of the images of the members of [S] *)
Definition moved_to (s : rootsys) (ww : list nat) (S T : bset) : Prop := length T = num_roots s /\ forall a, bmem T a = true <-> exists b, bmem S b = true /\ permuted_left s ww b = Ok a.
(** when the images are positive they are the simple roots of the image of the subsystem, so int_system gives the image,
    and the rows of coroots_matrix are its simple coroots *)
Theorem C137_moved (fits : Z -> bool) (r n : nat) (A B : nat -> nat -> Z) (p : predatum) (d : datum) (S : bset) (g : list nat) (t : subsys) (ww : list nat) (T : bset) : datum_of fits r n A B p d -> subsystem_of d S g ->
  subsystem d g = Ok t -> word n ww -> moved_to (d_sys d) ww S T -> (forall a, In a g -> exists b, permuted_left (d_sys d) ww a = Ok b /\ (num_pos (d_sys d) <= b)%nat) ->
  exists g' t' M, image_simples t ww = Ok g' /\ subsystem_of d T g' /\ int_system t ww = Ok t' /\ subsystem d g' = Ok t' /\
    coroots_matrix t ww = Ok M /\ is_mx M (length g') r (fun i j => co (listed_coroots r n B d g' i) j).
Proof.
  intros K0 So E W (TL & TM) Pos. pose proof (datum_of_ok _ _ _ _ _ _ _ K0) as K. destruct (k_sys _ _ _ _ _ _ K) as [c Bt]. pose proof So as (SL & SR & Sg). destruct (pos_first fits r n A B p d S g t K0 So E) as (Ed & _ & _ & _ & _ & Hj & _).
  destruct (C137_images fits r n A B p d S g t ww K0 So E W) as (l & El & Sl & Pl).
  pose proof (moved_basis n _ c _ (d_sys d) Bt ww W S SL SR g Sg T TL TM Pos) as Bs.
  assert (Fg : Forall (fun a => (a < num_roots (d_sys d))%nat) g).
  { apply Forall_forall. intros a Ia. destruct (In_nth _ _ 0%nat Ia) as (i & Hi & <-). apply (Hj i Hi). }
  assert (Eq : l = sort_list (map (RsfBase.mv (d_sys d) ww) g)).
  { assert (Pm : Permutation l (map (RsfBase.mv (d_sys d) ww) g)).
    { assert (Eg : map (permuted_left (d_sys d) ww) g = map Ok (map (RsfBase.mv (d_sys d) ww) g)).
      { rewrite map_map. apply map_ext_in. intros a Ia. rewrite Forall_forall in Fg. apply (perm_mv n _ c _ (d_sys d) Bt ww W). apply Fg; exact Ia. }
      rewrite Eg in Pl. set (un := fun x : res nat => match x with Ok y => y | Fail _ => 0%nat end). apply (Permutation_map un) in Pl. rewrite !map_map in Pl. cbn in Pl. rewrite map_id in Pl. exact Pl. }
    assert (Le : forall l1 l2, StronglySorted le l1 -> StronglySorted le l2 -> Permutation l1 l2 -> l1 = l2).
    { clear. induction l1 as [|x l1 IH]; intros l2 S1 S2 P; [apply Permutation_nil in P; congruence|]. destruct l2 as [|y l2]; [apply Permutation_sym in P; apply Permutation_nil in P; discriminate|].
      inversion S1 as [|? ? S1' F1]; subst. inversion S2 as [|? ? S2' F2]; subst. rewrite Forall_forall in F1, F2.
      assert (x = y). { assert (I1 : In x (y :: l2)) by (apply (Permutation_in _ P); left; reflexivity). assert (I2 : In y (x :: l1)) by (apply (Permutation_in _ (Permutation_sym P)); left; reflexivity).
        destruct I1 as [Q|I1]; [congruence|]. destruct I2 as [Q|I2]; [congruence|]. specialize (F1 y I2). specialize (F2 x I1). lia. }
      subst y. f_equal. apply IH; [exact S1'|exact S2'|]. apply Permutation_cons_inv with x. exact P. }
    apply Le; [exact Sl|apply sort_sorted|]. rewrite Pm. apply Permutation_sym. apply sort_perm. }
  assert (ST : subsystem_of d T l) by (split; [exact TL|]; split; [exact (T_closed n _ c _ (d_sys d) Bt ww W S SL SR T TM)|]; rewrite Eq; exact Bs).
  destruct (C134_roots fits r n A B p d T l K0 ST) as (t' & _ & Et' & _). destruct (pos_first fits r n A B p d T l t' K0 ST Et') as (_ & _ & _ & _ & _ & Hj' & _).
  assert (Q : exists M, coroots_matrix t ww = Ok M /\ is_mx M (length l) r (fun i j => co (listed_coroots r n B d l i) j)).
  { unfold coroots_matrix. rewrite El. cbn [bind]. rewrite Ed, (k_rank _ _ _ _ _ _ K). apply gives_none.
    eapply gives_mono; [apply (gives_upto0 (fun k M => exists f, is_mx M (length l) r f /\ forall i j, (i < k)%nat -> f i j = co (listed_coroots r n B d l i) j) _ _ _ (fun M => exists f, is_mx M (length l) r f /\ forall i j, (i < length l)%nat -> f i j = co (listed_coroots r n B d l i) j))|].
    - exists (fun _ _ => 0). split; [apply fill_ok|]. intros; lia.
    - intros k M Hk (h & HM & Q). rewrite (vget_nth l k Hk). cbn [bind]. rewrite (proj2 (d_root_run r n A B p d K _ (proj2 (proj2 (Hj' k Hk))))). cbn [bind].
      eapply gives_mono; [apply (set_row_ok _ _ _ h k _ (fun j => co (listed_coroots r n B d l k) j) HM Hk)|].
      + split; [apply comb_length|]. intros j Hj2. apply (get_co (listed_coroots r n B d l k)). unfold listed_coroots. rewrite comb_length. exact Hj2.
      + intros M' HM'. eexists. split; [exact HM'|]. intros i j Hi. cbn beta. destruct (Nat.eqb_spec i k) as [->|N]; [reflexivity|]. apply Q. lia.
    - auto.
    - intros M (h & HM & Q). eapply is_mx_ext; [exact HM|]. intros i j Hi _. apply Q. exact Hi. }
  destruct Q as (M & EM & HM). exists l, t', M. split; [exact El|]. split; [exact ST|]. split; [unfold int_system; rewrite El; cbn [bind]; rewrite Ed; exact Et'|]. split; [exact Et'|]. split; [exact EM|exact HM].
Qed.
(** in GL(4), the subsystem of the indices 1, 2 and 4, moved to the indices 1, 3 and 4 *)
Definition gl124 : bset := [true; true; false; false; false; true; true; false; false; false; true; true].
Definition gl134 : bset := [true; false; true; true; false; false; false; false; true; true; false; true].
Lemma gl124_ok : subsystem_of GL4 gl124 [6; 10]%nat.
Proof.
  split; [reflexivity|]. split; [|vm_compute; reflexivity]. intros a b c Ha Hb.
  do 12 (destruct a as [|a]; [try discriminate Ha; do 12 (destruct b as [|b]; [try discriminate Hb; vm_compute; intros Q; injection Q as <-; reflexivity|]); destruct b; discriminate Hb|]). destruct a; discriminate Ha.
Qed.
Definition GL124 : subsys := match subsystem GL4 [6; 10]%nat with Ok t => t | _ => Dlong end.
Example C137_ex : datum_of i32 4 3 (lA 4) (lA 4) (gl_pre 4) GL4 /\ subsystem_of GL4 gl124 [6; 10]%nat /\ subsystem GL4 [6; 10]%nat = Ok GL124 /\ word 3 [1]%nat /\ moved_to (d_sys GL4) [1]%nat gl124 gl134 /\
  map (permuted_left (d_sys GL4) [1]%nat) [6; 10]%nat = [Ok 9; Ok 8]%nat /\ num_pos (d_sys GL4) = 6%nat /\ image_simples GL124 [1]%nat = Ok [8; 9]%nat /\ simple_basis (d_sys GL4) gl134 = Ok [8; 9]%nat /\
  coroots_matrix GL124 [1]%nat = Ok (mk_mat 2 4 [0; 0; 1; -1; 1; 0; -1; 0]).
Proof.
  split; [exact datum_gl4|]. split; [exact gl124_ok|]. split; [vm_compute; reflexivity|]. split; [repeat constructor|]. split.
  - split; [reflexivity|]. intros a. split.
    + intros M. do 12 (destruct a as [|a]; [first [discriminate M|exists 0%nat; split; vm_compute; reflexivity|exists 5%nat; split; vm_compute; reflexivity|exists 1%nat; split; vm_compute; reflexivity|exists 10%nat; split; vm_compute; reflexivity|exists 6%nat; split; vm_compute; reflexivity|exists 11%nat; split; vm_compute; reflexivity]|]). destruct a; discriminate M.
    + intros (b & M & E). do 12 (destruct b as [|b]; [try discriminate M; vm_compute in E; injection E as <-; reflexivity|]). destruct b; discriminate M.
  - split; [vm_compute; reflexivity|]. split; [reflexivity|]. split; [vm_compute; reflexivity|]. split; vm_compute; reflexivity.
Qed.

Print Assumptions C134_roots.
Print Assumptions C134_lattice.
Print Assumptions C135_words.
Print Assumptions C136_integral.
Print Assumptions C136_singular.
Print Assumptions C136_sets.
Print Assumptions C136_predatum.
Print Assumptions C136_numbering_refuted.
Print Assumptions C137_images.
Print Assumptions C137_moved.
