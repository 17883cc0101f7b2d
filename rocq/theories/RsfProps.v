(** C117-C121: orthogonal roots, components, conjugation to simple roots, roots made negative, positive systems. *)

From Coq Require Import List Arith ZArith Bool Lia Sorted Relations.
From Verif Require Import VecModel RunModel RunProofs MatModel MatSpec MatRing MatProofs SizeModel DynBits
  LieTypeModel LieTypeSpec DynkinModel DynProps RootModel RootSpec RootUniq RootTop RootProps DatSpec DatMath RsfModel RsfBase RsfProofs RsfSteps.
Import ListNotations.
Local Open Scope Z_scope.

Definition set_of (k : nat) (l : list nat) : bset := map (fun a => existsb (Nat.eqb a) l) (seq 0 k).

Lemma in_lt (k : nat) (B : bset) a : length B = k -> bmem B a = true -> (a < k)%nat.
Proof. intros L M. destruct (le_lt_dec (length B) a) as [Q|Q]; [unfold bmem in M; rewrite nth_overflow in M by exact Q; discriminate|lia]. Qed.

(** * C117: orthogonal roots and components *)
(** makeOrthogonal gives the members of the second set that are orthogonal to all members of the first *)
Theorem C117_orthogonal (n : nat) (f : nat -> nat -> Z) (c : matrix Z) (pc : bool) (s : rootsys) (o sub : bset) : built n f c pc s ->
  length o = num_roots s -> length sub = num_roots s -> exists R, make_orthogonal s o sub = Ok R /\ length R = num_roots s /\
    forall a, bmem R a = true <-> bmem sub a = true /\ forall b, bmem o b = true -> value n f (root_at s a) (coroot_at s b) = 0.
Proof. intros (L & F & H & E). apply (orthogonal_run n f c pc s L F H E). Qed.
(** components: [joined] roots are members that are not orthogonal; two members are in the same set of the result if and
    only if there is a chain of joined roots between them; the sets are not empty, disjoint, and cover all members *)
Theorem C117_components (n : nat) (f : nat -> nat -> Z) (c : matrix Z) (pc : bool) (s : rootsys) (R : bset) : built n f c pc s ->
  length R = num_roots s -> exists l, components s R = Ok l /\
    (forall x, In x l -> length x = num_roots s /\ exists a, bmem x a = true) /\
    (forall a, bmem R a = true <-> exists x, In x l /\ bmem x a = true) /\
    (forall a b, bmem R a = true -> ((exists x, In x l /\ bmem x a = true /\ bmem x b = true) <-> clos_refl_trans _ (joined n f s R) a b)) /\
    ForallOrdPairs (fun x y => forall a, bmem x a = true -> bmem y a = true -> False) l.
Proof.
  intros (L & F & H & E) LR. destruct (components_run n f c pc s L F H E R LR) as (l & El & P). exists l. split; [exact El|]. destruct P as [P1 P2 P3 P4 P5 P6 P7].
  assert (Lt : forall a, bmem R a = true -> (a < 2 * num_pos s)%nat) by (intros a M; apply (in_lt _ R a LR M)).
  split; [intros x I; split; [rewrite Forall_forall in P1; apply P1; exact I|apply P3; exact I]|]. split; [intros a; split; [intros M; apply P4; [apply Lt; exact M|exact M]|intros (x & I & M); apply (P2 x a I M)]|]. split; [|exact P7].
  intros a b Ma. split.
  - intros (x & I & M1 & M2). pose proof (P5 x a b I M1 M2) as Q. clear M1 M2 Ma. induction Q as [a b (_ & _ & J)| |a b d _ IH1 _ IH2]; [apply rt_step; exact J|apply rt_refl|eapply rt_trans; eassumption].
  - intros Q. destruct (P4 a (Lt a Ma) Ma) as (x & I & M). exists x. split; [exact I|]. split; [exact M|]. clear Ma. apply clos_rt_rt1n in Q. induction Q as [|a y z J Q IH]; [exact M|]. apply IH. apply (P6 x a y I M). destruct J as (J1 & J2 & J3). split; [apply Lt; exact J1|]. split; [apply Lt; exact J2|]. split; [exact J1|split; assumption].
Qed.
Example C117_ex : built 3 (ent 3 (mdata b3)) b3 true B /\ make_orthogonal B (set_of 18 [9]%nat) (posroot_set B) = Ok (set_of 18 [11; 16]%nat) /\
  components B (set_of 18 [9; 0; 11; 16]%nat) = Ok [set_of 18 [11]%nat; set_of 18 [0; 9; 16]%nat] /\
  components B (set_of 18 [2; 9; 11]%nat) = Ok [set_of 18 [2; 9]%nat; set_of 18 [11]%nat].
Proof. split; [exact built_B|]. vm_compute. auto. Qed.

(** * C118: conjugation to a simple root, long roots *)
(** the word sends the simple root to the given root or its opposite, whichever is positive *)
Theorem C118_conjugate (n : nat) (f : nat -> nat -> Z) (c : matrix Z) (pc : bool) (s : rootsys) (a : nat) : built n f c pc s -> (a < num_roots s)%nat ->
  exists i w, conjugate_to_simple s a = Ok (i, w) /\ (i < n)%nat /\ Forall (fun j => (j < n)%nat) w /\
    word_act n f w (basis n i) = (if (num_pos s <=? a)%nat then root_at s a else opp (root_at s a)).
Proof.
  intros (L & F & H & E) Ha. destruct (conjugate_run n f c pc s L F H E a Ha) as (i & w & Ec & Hi & W & Em & _). exists i, w. split; [exact Ec|]. split; [exact Hi|]. split; [exact W|].
  destruct (simple_lt n f c pc s L F H E i Hi) as (Hp & Es & _). destruct (mv_ok n f c pc s L F H E w (num_pos s + i) W ltac:(lia)) as (_ & Er & _). rewrite <- Es, <- Er, Em. unfold make_positive, is_pos. destruct (num_pos s <=? a)%nat; [reflexivity|].
  apply (minus_ok n f c pc s L F H E a Ha).
Qed.
(** a root is found long when its value on some coroot other than its own and the opposite is at least 2; in terms of
    lengths, when its component has a shorter root *)
Theorem C118_long_root (n : nat) (f : nat -> nat -> Z) (c : matrix Z) (pc : bool) (s : rootsys) (a : nat) : built n f c pc s -> (a < num_roots s)%nat ->
  exists t, is_long_root s a = Ok t /\ (t = true <-> exists v w, root_coroot n f v w /\ v <> root_at s a /\ v <> opp (root_at s a) /\ 2 <= value n f (root_at s a) w).
Proof.
  intros (L & F & H & E) Ha. destruct (long_root_run n f c pc s L F H E a Ha) as (t & Et & Q). exists t. split; [exact Et|]. rewrite Q. destruct (minus_ok n f c pc s L F H E a Ha) as (Hm & _ & Em & _). split.
  - intros (b & Hb & N1 & N2 & V). exists (root_at s b), (coroot_at s b). split; [apply (rt_rc n f c pc s L F H E b Hb)|]. split; [intros K; apply N1; apply (rt_eq n f c pc s L F H E b a Hb Ha K)|]. split; [intros K; apply N2; apply (rt_eq n f c pc s L F H E _ _ Hb Hm); congruence|lia].
  - intros (v & w & R & N1 & N2 & V). destruct (top_every n f c pc s L F H E v w R) as (b & Hb & Ev & Ew). exists b. split; [exact Hb|]. split; [intros K; apply N1; congruence|]. split; [intros K; apply N2; rewrite K in Ev; congruence|]. rewrite Ew. lia.
Qed.
Theorem C118_long_coroot (n : nat) (f : nat -> nat -> Z) (c : matrix Z) (pc : bool) (s : rootsys) (a : nat) : built n f c pc s -> (a < num_roots s)%nat ->
  exists t, is_long_coroot s a = Ok t /\ (t = true <-> exists v w, root_coroot n f v w /\ v <> root_at s a /\ v <> opp (root_at s a) /\ 2 <= value n f v (coroot_at s a)).
Proof.
  intros (L & F & H & E) Ha. destruct (long_coroot_run n f c pc s L F H E a Ha) as (t & Et & Q). exists t. split; [exact Et|]. rewrite Q. destruct (minus_ok n f c pc s L F H E a Ha) as (Hm & _ & Em & _). split.
  - intros (b & Hb & N1 & N2 & V). exists (root_at s b), (coroot_at s b). split; [apply (rt_rc n f c pc s L F H E b Hb)|]. split; [intros K; apply N1; apply (rt_eq n f c pc s L F H E b a Hb Ha K)|]. split; [intros K; apply N2; apply (rt_eq n f c pc s L F H E _ _ Hb Hm); congruence|lia].
  - intros (v & w & R & N1 & N2 & V). destruct (top_every n f c pc s L F H E v w R) as (b & Hb & Ev & Ew). exists b. split; [exact Hb|]. split; [intros K; apply N1; congruence|]. split; [intros K; apply N2; rewrite K in Ev; congruence|]. rewrite Ev. lia.
Qed.
Example C118_ex : built 3 (ent 3 (mdata b3)) b3 true B /\ conjugate_to_simple B 0 = Ok (2, [0; 1])%nat /\ conjugate_to_simple B 16 = Ok (1, [1; 0; 2])%nat /\
  word_act 3 (ent 3 (mdata b3)) [0; 1]%nat (basis 3 2) = opp (root_at B 0) /\
  map (is_long_root B) [9; 10; 11; 13; 15; 17]%nat = map Ok [true; true; false; true; false; false] /\
  map (is_long_coroot B) [9; 10; 11; 13; 15; 17]%nat = map Ok [false; false; true; false; true; true].
Proof. split; [exact built_B|]. vm_compute. auto 10. Qed.

(** * C119: the positive roots made negative by a word *)
Theorem C119_negative (n : nat) (f : nat -> nat -> Z) (c : matrix Z) (pc : bool) (s : rootsys) (w : list nat) : built n f c pc s -> Forall (fun j => (j < n)%nat) w ->
  exists R, pos_to_neg s w = Ok R /\ length R = num_roots s /\
    forall a, bmem R a = true <-> (num_pos s <= a < num_roots s)%nat /\ ~ nonneg (word_act n f w (root_at s a)).
Proof.
  intros (L & F & H & E) W. destruct (pos_to_neg_run n f c pc s L F H E w W) as (R & Er & LR & A). exists R. split; [exact Er|]. split; [exact LR|].
  assert (Q : forall a, (a < 2 * num_pos s)%nat -> ((mv s w a < num_pos s)%nat <-> ~ nonneg (word_act n f w (root_at s a)))).
  { intros a Ha. destruct (mv_ok n f c pc s L F H E w a W Ha) as (Hm & Em & _). rewrite <- Em. rewrite <- (top_sign n f c pc s L F H E _ Hm). lia. }
  intros a. split.
  - intros M. pose proof (in_lt _ R a LR M) as Ha. apply (A a Ha) in M. unfold num_roots. split; [lia|]. apply Q; [exact Ha|apply M].
  - unfold num_roots. intros [Ha N]. apply A; [lia|]. split; [lia|]. apply Q; [lia|exact N].
Qed.
Example C119_ex : built 2 (ent 2 (mdata g2)) g2 false G /\ pos_to_neg G [0; 1; 0]%nat = Ok (set_of 12 [6; 9; 10]%nat) /\ pos_to_neg G [0; 1; 1]%nat = Ok (set_of 12 [6]%nat) /\
  word_act 2 (ent 2 (mdata g2)) [0; 1; 0]%nat (root_at G 10) = [-3; -1].
Proof. split; [exact built_G|]. vm_compute. auto. Qed.

(** * C120: making the simple system of a subsystem positive *)
(** [D] is a list of [m] roots whose values on each other's coroots make up a matrix [g] of finite type; [t] is a root
    system of that type.  The list is changed, by reflections in the negative roots recorded, to one of positive roots.
    The number of steps is at most the number of positive roots of [t].  The recorded positions give the word by which
    the simple system has to be changed before mapping it *)
Theorem C120_positive (n : nat) (f : nat -> nat -> Z) (c : matrix Z) (pc : bool) (s : rootsys) (m : nat) (g : nat -> nat -> Z) (d : matrix Z) (qc : bool) (t : rootsys) (D : list nat) (fuel : nat) :
  built n f c pc s -> built m g d qc t -> length D = m -> (forall i, (i < m)%nat -> (nth i D 0 < num_roots s)%nat) ->
  (forall i j, (i < m)%nat -> (j < m)%nat -> value n f (root_at s (nth i D 0%nat)) (coroot_at s (nth j D 0%nat)) = g i j) -> (num_pos t <= fuel)%nat ->
  exists D' st, to_positive_system fuel s D = Ok (D', st) /\ (length st <= num_pos t)%nat /\ length D' = m /\
    Forall (fun q => (fst q < m)%nat /\ (snd q < num_pos s)%nat) st /\
    forall i, (i < m)%nat -> (num_pos s <= nth i D' 0 < num_roots s)%nat /\
      root_at s (nth i D' 0%nat) = fold_left (fun v q => reflect n f (root_at s (snd q)) (coroot_at s (snd q)) v) st (root_at s (nth i D 0%nat)) /\
      root_at s (nth i D' 0%nat) = comb n m (fun j => root_at s (nth j D 0%nat)) (word_act m g (map fst st) (basis m i)).
Proof.
  intros (L & F & H & E) (L2 & F2 & H2 & E2) LD R V Fu. destruct (poslist_ok m g d qc t L2 F2 H2 E2) as (PN & PU & PL).
  assert (I : image n f s m g D) by (split; [exact LD|split; assumption]). assert (Cn : (cnt n s m (poslist t) D <= num_pos t)%nat). { rewrite <- PL. unfold cnt. clear. induction (poslist t) as [|x l IH]; [cbn; lia|]. cbn. destruct (neg _); cbn; lia. }
  destruct (steps_run n f c pc s L F H E m g F2 (poslist t) PN PU fuel D I ltac:(lia) []) as (D' & st & Es & I' & Po & Ln & Fa & Em & Rf). exists D', st. split; [exact Es|]. split; [lia|]. split; [apply I'|]. split; [exact Fa|].
  intros i Hi. destruct I' as (L' & R' & V'). split; [split; [|apply R'; exact Hi]|]. { rewrite Forall_forall in Po. apply Po. apply nth_In. lia. }
  split; [apply Rf; exact Hi|]. etransitivity; [|apply (Em (basis m i)); apply RootMath.basis_length]. symmetry. apply (DatMath.comb_basis n m (al s D') i Hi). apply (rt_len n f c pc s L F H E). apply R'. exact Hi.
Qed.
(** a subsystem of type A2 in B3, given by two roots of which one is negative *)
Definition a2 : matrix Z := mk_mat 2 2 [2; -1;  -1; 2].
Definition A2 : rootsys := Eval vm_compute in done (root_system a2 false).
Lemma built_A2 : built 2 (ent 2 (mdata a2)) a2 false A2.
Proof.
  assert (H : is_mx a2 2 2 (ent 2 (mdata a2))).
  { split; [reflexivity|]. split; [reflexivity|]. split; [reflexivity|]. intros i j Hi Hj. do 2 (destruct i as [|i]; [do 2 (destruct j as [|j]; [reflexivity|]); lia|]). lia. }
  split; [lia|]. split; [|split; [exact H|vm_compute; reflexivity]]. apply (type_finite 2 _ a2 [(tA, 2%nat)] [0; 1]%nat); [lia|exact H|vm_compute; reflexivity].
Qed.
Example C120_ex : built 3 (ent 3 (mdata b3)) b3 true B /\ built 2 (ent 2 (mdata a2)) a2 false A2 /\
  map (fun '(i, j) => bracket B (nth i [8; 4]%nat 0%nat) (nth j [8; 4]%nat 0%nat)) [(0, 0); (0, 1); (1, 0); (1, 1)]%nat = map Ok [2; -1; -1; 2] /\
  to_positive_system 3 B [8; 4]%nat = Ok ([13; 9], [(0, 8); (1, 3); (0, 4)])%nat.
Proof. split; [exact built_B|]. split; [exact built_A2|]. vm_compute. auto. Qed.

(** * C121: writing an automorphism as a word times a diagram automorphism *)
(** [D] is the list of images of the simple roots by an automorphism: their values on each other's coroots are the
    entries of the Cartan matrix.  The list becomes one of simple roots, which is a symmetry of the Cartan matrix, and
    the word sends the simple roots of this list to the roots given *)
Theorem C121_distinguished (n : nat) (f : nat -> nat -> Z) (c : matrix Z) (pc : bool) (s : rootsys) (D : list nat) :
  built n f c pc s -> length D = n -> (forall i, (i < n)%nat -> (nth i D 0 < num_roots s)%nat) ->
  (forall i j, (i < n)%nat -> (j < n)%nat -> value n f (root_at s (nth i D 0%nat)) (coroot_at s (nth j D 0%nat)) = f i j) ->
  exists D' w, wrt_distinguished s D = Ok (D', w) /\ length D' = n /\ Forall (fun i => (i < n)%nat) w /\ (length w <= num_pos s)%nat /\
    (forall i, (i < n)%nat -> exists k, (k < n)%nat /\ nth i D' 0%nat = (num_pos s + k)%nat /\ root_at s (nth i D 0%nat) = word_act n f w (basis n k)) /\
    (forall i j, (i < n)%nat -> (j < n)%nat -> f (nth i D' 0 - num_pos s)%nat (nth j D' 0 - num_pos s)%nat = f i j).
Proof.
  intros (L & F & H & E) LD R V. assert (I : image n f s n f D) by (split; [exact LD|split; assumption]). destruct (wrt_run n f c pc s L F H E D I) as (D' & w & Ew & L' & W & A & S & Ln). exists D', w. split; [exact Ew|]. split; [exact L'|]. split; [exact W|]. split.
  - rewrite Ln. destruct (poslist_ok n f c pc s L F H E) as (_ & _ & PL). rewrite <- PL. unfold cnt. clear. induction (poslist s) as [|x l IH]; [cbn; lia|]. cbn. destruct (neg _); cbn; lia.
  - split; [|exact S]. intros i Hi. destruct (A i Hi) as (P & Q). exists (nth i D' 0 - num_pos s)%nat. split; [lia|]. split; [lia|]. rewrite Q. f_equal. destruct (simple_lt n f c pc s L F H E (nth i D' 0 - num_pos s)%nat ltac:(lia)) as (_ & <- & _). f_equal. lia.
Qed.
(** an automorphism of A2 that is not an involution, and its opposite *)
Example C121_ex : built 2 (ent 2 (mdata a2)) a2 false A2 /\ wrt_distinguished A2 [4; 0]%nat = Ok ([3; 4], [0; 1])%nat /\ wrt_distinguished A2 [1; 5]%nat = Ok ([4; 3], [1])%nat /\
  map (fun '(i, j) => bracket A2 (nth i [4; 0]%nat 0%nat) (nth j [4; 0]%nat 0%nat)) [(0, 0); (0, 1); (1, 0); (1, 1)]%nat = map Ok [2; -1; -1; 2].
Proof. split; [exact built_A2|]. vm_compute. auto. Qed.

Print Assumptions C117_orthogonal.
Print Assumptions C117_components.
Print Assumptions C118_conjugate.
Print Assumptions C118_long_root.
Print Assumptions C118_long_coroot.
Print Assumptions C119_negative.
Print Assumptions C120_positive.
Print Assumptions C121_distinguished.
