(** C143-C146: lattices with an involution and real tori. *)

From Coq Require Import List Arith ZArith Bool Lia.
From Verif Require Import RedModel LatModel RedSpec LatSpec DatSub.
From Verif Require Import F2Model F2Spec F2Proofs SubqModel SubqSpec SubqProofs.
From Verif Require Import VecModel RunModel RunProofs MatModel MatSpec MatProofs DfModel ToriModel ToriSpec ToriLat ToriRank ToriProofs ToriGroup ToriTorus DatProps.
Import ListNotations.
Open Scope Z_scope.
Notation sure := (fun _ : err => False).

(** an involution with one fixed, one negated and one exchanged pair of basis vectors, in another basis *)
Definition tau4 : matrix Z := mk_mat 4 4 [1; -1; 0; 0; 0; -1; 0; 0; 0; 0; 1; -2; 0; 0; 0; -1].
Definition tf (i j : nat) : Z := nth (4 * i + j) [1; -1; 0; 0; 0; -1; 0; 0; 0; 0; 1; -2; 0; 0; 0; -1] 0.
Ltac cases4 i j := do 4 (destruct i as [|i]; [do 4 (destruct j as [|j]; [vm_compute; reflexivity|]); lia|]); lia.
Lemma tau4_mx : is_mx tau4 4 4 tf.
Proof. split; [reflexivity|]. split; [reflexivity|]. split; [reflexivity|]. intros i j Hi Hj. cases4 i j. Qed.
Lemma tf_involution : is_involution 4 tf.
Proof. intros i j Hi Hj. cases4 i j. Qed.
Definition tg (i j : nat) : Z := nth (4 * i + j) [0; 0; 0; -1; 0; 0; 1; -1; 1; 1; 0; 0; 0; 1; 0; 0] 0.
Definition th (i j : nat) : Z := nth (4 * i + j) [0; 0; 1; -1; 0; 0; 0; 1; -1; 1; 0; 0; -1; 0; 0; 0] 0.
Lemma tf_splits : splits_by 4 tf tg 1 1 1.
Proof.
  split; [reflexivity|]. split.
  - exists th. split; intros i j Hi Hj; cases4 i j.
  - split; [|split]; intros j Hj i Hi; do 4 (destruct j as [|j]; [try (exfalso; lia); do 4 (destruct i as [|i]; [vm_compute; reflexivity|]); lia|]); lia.
Qed.

(** * C143: the normal form of an involution, and its computation *)
Theorem C143_exists n f : is_involution n f -> exists a b c, splits n f a b c.
Proof. exact (splits_exist n f). Qed.
Theorem C143_unique n f a b c a' b' c' : is_involution n f -> splits n f a b c -> splits n f a' b' c' -> a = a' /\ b = b' /\ c = c'.
Proof. exact (splits_unique n f a b c a' b' c'). Qed.
Theorem C143_classify dim fits as_int tau n f a b c : (forall z, as_int z = z) -> (n <= dim)%nat -> is_mx tau n n f -> is_involution n f -> splits n f a b c ->
  gives (classify dim fits as_int tau) (fun t => t = (a, c, b)) (overflows fits).
Proof. exact (classify_ok dim fits as_int tau n f a b c). Qed.
Example C143_ex : is_mx tau4 4 4 tf /\ is_involution 4 tf /\ splits 4 tf 1 1 1 /\ classify 32 i32 (fun z => z) tau4 = Ok (1, 1, 1)%nat /\
  classify 32 i32 (fun z => z) (mk_mat 2 2 [1; -2; 0; -1]) = Ok (1, 0, 1)%nat /\ classify 32 i32 (fun z => z) (mk_mat 2 2 [1; -1; 0; -1]) = Ok (0, 1, 0)%nat.
Proof.
  split; [exact tau4_mx|]. split; [exact tf_involution|]. split; [exists tg; exact tf_splits|]. split; [vm_compute; reflexivity|]. split; vm_compute; reflexivity.
Qed.

(** * C144: the dual of the component group *)
Theorem C144_dualPi0 dim fits as_int q n f : (forall z, as_int z = z) -> (n <= dim)%nat -> is_mx q n n f -> is_involution n f ->
  gives (dualPi0 dim fits as_int q) (represents_quotient n (eigen2_sum n f) (eigen2 n f 1)) (overflows fits).
Proof. intros Hint Hn HM Inv. exact (dualPi0_ok n f Inv dim fits as_int q Hint Hn HM). Qed.
(** its dimension is the number of negated vectors of the normal form *)
Theorem C144_dimension n f a b c q : is_involution n f -> splits n f a b c -> represents_quotient n (eigen2_sum n f) (eigen2 n f 1) q ->
  ss_dimension (sq_space q) = (a + b + c)%nat /\ sq_dimension q = b.
Proof. intros Inv. exact (topology_dim n f Inv a b c q). Qed.
Example C144_ex : is_mx tau4 4 4 tf /\ is_involution 4 tf /\ splits 4 tf 1 1 1 /\
  dualPi0 32 i32 (fun z => z) tau4 = Ok (mk_sq (mk_ss [mk_bv 1 4; mk_bv 4 4; mk_bv 8 4] 13 4) (mk_ss [mk_bv 1 4; mk_bv 4 4] 5 4) 4) /\
  eigen2_sum 4 tf 8%N /\ ~ eigen2 4 tf 1 8%N.
Proof.
  split; [exact tau4_mx|]. split; [exact tf_involution|]. split; [exists tg; exact tf_splits|]. split; [vm_compute; reflexivity|].
  assert (W : within 4 8) by (intros i Hi; unfold coord; apply N.bits_above_log2; cbn; lia).
  split.
  - exists (fun i => if (i =? 2)%nat then -1 else 0), (fun i => if (i <? 2)%nat then 0 else 1).
    split; [intros i Hi; do 4 (destruct i as [|i]; [vm_compute; reflexivity|]); lia|]. split; [intros i Hi; do 4 (destruct i as [|i]; [vm_compute; reflexivity|]); lia|].
    split; [exact W|]. intros i Hi. do 4 (destruct i as [|i]; [vm_compute; reflexivity|]). lia.
  - intros (x & X & (_ & V)). specialize (X 3%nat ltac:(lia)). specialize (V 3%nat ltac:(lia)). change (0 * x 0%nat + 0 * x 1%nat + 0 * x 2%nat + -1 * x 3%nat = 1 * x 3%nat) in X.
    assert (E : x 3%nat = 0) by lia. rewrite E in V. discriminate V.
Qed.

(** * C145: the torus constructed from an involution *)
Theorem C145_make dim fits as_int q n f : (forall z, as_int z = z) -> (n <= dim)%nat -> is_mx q n n f -> is_involution n f ->
  gives (torus_make dim fits as_int q) (fun t => torus_of n f t /\ t_involution t = q) (overflows fits).
Proof. exact (make_ok dim fits as_int q n f). Qed.
Theorem C145_ranks n f t a b c : torus_of n f t -> splits n f a b c ->
  t_rank t = (a + b + (c + c))%nat /\ t_complex t = c /\ length (t_plus t) = (a + c)%nat /\ length (t_minus t) = (b + c)%nat /\
  compactRank t = Ok a /\ splitRank t = Ok b /\ twoRank t = Ok (a + b + c)%nat /\ sq_dimension (t_topology t) = b.
Proof.
  intros T Sp. split; [rewrite (proj1 T); apply (t_size n f a b c Sp)|]. split; [apply (t_c n f t T a b c Sp)|]. split; [apply (t_plus_length n f t T a b c Sp)|].
  split; [apply (t_minus_length n f t T a b c Sp)|]. split; [apply (compact_rank n f t T a b c Sp)|]. split; [apply (split_rank n f t T a b c Sp)|].
  split; [apply (two_rank n f t T a b c Sp)|apply (topology_rank n f t T a b c Sp)].
Qed.
Theorem C145_compact n f t : torus_of n f t -> (isCompact t = true <-> feq n n f delta) /\ (isSplit t = true <-> feq n n f (fun i j => - delta i j)).
Proof.
  intros T. destruct (splits_exist n f (proj1 (proj2 (proj2 T)))) as (a & b & c & Sp). split; [apply (compact_iff n f t T a b c Sp)|apply (split_iff n f t T a b c Sp)].
Qed.
Definition torus4 : torus := mk_torus 4 1 tau4 (mk_mat 2 4 [1; 0; 0; 0; 0; 0; 1; 0]) (mk_mat 2 4 [1; 0; 0; 0; 0; 0; 1; 0])
  [[1; 0; 0; 0]; [0; 0; 1; 0]] [[1; 2; 0; 0]; [0; 0; 1; 1]] (mk_sq (mk_ss [mk_bv 1 4; mk_bv 4 4; mk_bv 8 4] 13 4) (mk_ss [mk_bv 1 4; mk_bv 4 4] 5 4) 4).
Lemma torus4_make : torus_make 32 i32 (fun z => z) tau4 = Ok torus4.
Proof. vm_compute. reflexivity. Qed.
Lemma torus4_of : torus_of 4 tf torus4.
Proof.
  pose proof (make_ok 32 i32 (fun z => z) tau4 4 tf (fun z => eq_refl) ltac:(lia) tau4_mx tf_involution) as G. rewrite torus4_make in G. apply G.
Qed.
Example C145_ex : is_mx tau4 4 4 tf /\ is_involution 4 tf /\ torus_make 32 i32 (fun z => z) tau4 = Ok torus4 /\ torus_of 4 tf torus4 /\ splits 4 tf 1 1 1 /\
  compactRank torus4 = Ok 1%nat /\ twoRank torus4 = Ok 3%nat /\ isCompact torus4 = false.
Proof.
  split; [exact tau4_mx|]. split; [exact tf_involution|]. split; [exact torus4_make|]. split; [exact torus4_of|]. split; [exists tg; exact tf_splits|]. split; [vm_compute; reflexivity|]. split; vm_compute; reflexivity.
Qed.

(** * C146: the dual torus, and maps between component groups *)
Theorem C146_dual dim fits as_int t n f : (forall z, as_int z = z) -> (n <= dim)%nat -> torus_of n f t ->
  gives (torus_dual dim fits as_int t) (torus_of n (fun i j => - f j i)) (overflows fits).
Proof. exact (dual_ok dim fits as_int t n f). Qed.
Theorem C146_dual_type n f a b c : is_involution n f -> splits n f a b c -> splits n (fun i j => - f j i) b a c.
Proof. exact (dual_splits n f a b c). Qed.
(** a map of lattices compatible with the involutions induces a map of the quotients; its matrix is computed *)
Theorem C146_componentMap dim t t' n n' f f' M m : (n <= dim)%nat -> (n' <= dim)%nat -> torus_of n f t -> torus_of n' f' t' -> is_mx M n' n m ->
  feq n' n (fmul n' f' m) (fmul n m f) ->
  gives (componentMap dim t M t') (fun A => rows A = sq_dimension (t_topology t') /\ is_matrix (sq_dimension (t_topology t')) (sq_dimension (t_topology t)) (cols A) /\
    forall x v w, eigen2_sum n f (data v) -> sized n v -> mod2 n x (data v) -> sized n' w -> mod2 n' (fapply n m x) (data w) ->
      gives (sq_toBasis dim (t_topology t) v) (fun u => sq_toBasis dim (t_topology t') w = Ok (mk_bv (image_of (cols A) (data u)) (sq_dimension (t_topology t')))) sure) sure.
Proof. exact (component_ok dim t t' n n' f f' M m). Qed.
Definition tm (i j : nat) : Z := nth (4 * i + j) [2; -1; 0; 0; 0; 0; 0; 0; 0; 0; 3; -4; 0; 0; 0; -1] 0.
Example C146_ex : torus_of 4 tf torus4 /\ splits 4 (fun i j => - tf j i) 1 1 1 /\
  (run t <- torus_dual 32 i32 (fun z => z) torus4; Ok (t_plus t, t_minus t, t_involution t)) =
    Ok ([[0; 1; 0; 0]; [0; 0; 0; 1]], [[2; -1; 0; 0]; [0; 0; 1; -1]], mk_mat 4 4 [-1; 0; 0; 0; 1; 1; 0; 0; 0; 0; -1; 0; 0; 0; 2; 1]) /\
  is_mx (mk_mat 4 4 [2; -1; 0; 0; 0; 0; 0; 0; 0; 0; 3; -4; 0; 0; 0; -1]) 4 4 tm /\ feq 4 4 (fmul 4 tf tm) (fmul 4 tm tf) /\
  componentMap 32 torus4 (mk_mat 4 4 [2; -1; 0; 0; 0; 0; 0; 0; 0; 0; 3; -4; 0; 0; 0; -1]) torus4 = Ok (mk_bm [1%N] 1).
Proof.
  split; [exact torus4_of|]. split; [apply dual_splits; [exact tf_involution|exists tg; exact tf_splits]|]. split; [vm_compute; reflexivity|]. split; [|split; [|vm_compute; reflexivity]].
  - split; [reflexivity|]. split; [reflexivity|]. split; [reflexivity|]. intros i j Hi Hj. cases4 i j.
  - intros i j Hi Hj. cases4 i j.
Qed.

Print Assumptions C143_exists.
Print Assumptions C143_unique.
Print Assumptions C143_classify.
Print Assumptions C144_dualPi0.
Print Assumptions C144_dimension.
Print Assumptions C145_make.
Print Assumptions C145_ranks.
Print Assumptions C145_compact.
Print Assumptions C146_dual.
Print Assumptions C146_dual_type.
Print Assumptions C146_componentMap.
