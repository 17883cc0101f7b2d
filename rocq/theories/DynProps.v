(** C91-C93: the Lie type of a Cartan matrix. *)

From Coq Require Import List Arith ZArith Bool Lia Permutation.
From Verif Require Import VecModel RunModel RunProofs MatModel MatSpec MatProofs BitsetModel BitsetSpec
  LieTypeModel LieTypeSpec DynkinModel DynBits DynRead DynMain DynUniq DynAccess.
Import ListNotations.
Local Open Scope nat_scope.

(** * C91: the type and numbering found are right *)
(** renumbering by the permutation turns the matrix into the one of the type *)
Theorem C91_type (n : nat) (f : nat -> nat -> Z) (c : matrix Z) (t : lietype) (pi : list nat) :
  is_mx c n n f -> n <= 32 -> lie_type_perm c = Ok (t, pi) -> valid_type t /\ semisimple t /\ straightens n f t pi.
Proof. intros H L E. pose proof (lie_type_perm_ok n f c H L) as G. rewrite E in G. exact G. Qed.
(** the variant without permutation finds the same type *)
Theorem C91_type_only (c : matrix Z) : mrows c = mcols c ->
  lie_type c = match lie_type_perm c with Ok (t, _) => Ok t | Fail e => Fail e end.
Proof. intros H. rewrite lie_type_of_perm by exact H. destruct (lie_type_perm c) as [[t pi]|e]; reflexivity. Qed.
(** the sum of G2 and C3 in a mixed numbering *)
Definition mixed : matrix Z := mk_mat 5 5
  [ 2; 0; 0; -3; 0;
    0; 2; -1; 0; -1;
    0; -2; 2; 0; 0;
   -1; 0; 0; 2; 0;
    0; -1; 0; 0; 2]%Z.
Example C91_type_ex : lie_type_perm mixed = Ok ([(tG, 2); (tC, 3)], [3; 0; 4; 1; 2]) /\
  is_mx mixed 5 5 (fun i j => nth (i * 5 + j) (mdata mixed) 0%Z).
Proof.
  split; [vm_compute; reflexivity|]. split; [reflexivity|]. split; [reflexivity|]. split; [reflexivity|].
  intros i j Hi Hj. do 5 (destruct i as [|i]; [do 5 (destruct j as [|j]; [reflexivity|]); lia|]). lia.
Qed.

(** * C92: every Cartan matrix of finite type is recognised, no other one is *)
Theorem C92_recognised (n : nat) (f : nat -> nat -> Z) (c : matrix Z) : is_mx c n n f -> n <= 32 ->
  (finite_type n f -> exists t pi, lie_type_perm c = Ok (t, pi)) /\
  (~ finite_type n f -> lie_type_perm c = Fail Thrown).
Proof.
  intros H L. split; [apply lie_type_complete; assumption|]. intros N. pose proof (lie_type_perm_ok n f c H L) as G.
  destruct (lie_type_perm c) as [[t pi]|e]; cbn in G; [|destruct G as [-> _]; reflexivity].
  destruct N. exists t, pi. exact G.
Qed.
(** a matrix that is not square is refused *)
Theorem C92_not_square (c : matrix Z) : mrows c <> mcols c -> lie_type_perm c = Fail Thrown.
Proof. intros N. unfold lie_type_perm. rewrite (proj2 (Nat.eqb_neq _ _) N). reflexivity. Qed.
(** the type is unique up to the order of the factors, B2 = C2, F4 = f4 and G2 = g2 *)
Theorem C92_unique (n : nat) (f : nat -> nat -> Z) (c : matrix Z) (t : lietype) (pi : list nat) (lt : lietype) (rho : list nat) :
  is_mx c n n f -> n <= 32 -> lie_type_perm c = Ok (t, pi) ->
  valid_type lt -> semisimple lt -> straightens n f lt rho -> Permutation (map canonical t) (map canonical lt).
Proof. apply lie_type_unique. Qed.
(** the triangle of three nodes (affine A2), a chain with two double edges, two nodes with a fourfold edge *)
Definition triangle : matrix Z := mk_mat 3 3 [2; -1; -1;  -1; 2; -1;  -1; -1; 2]%Z.
Example C92_refused_ex : lie_type_perm triangle = Fail Thrown /\
  lie_type_perm (mk_mat 3 3 [2; -2; 0;  -1; 2; -2;  0; -1; 2]%Z) = Fail Thrown /\
  lie_type_perm (mk_mat 2 2 [2; -2; -2; 2]%Z) = Fail Thrown.
Proof. vm_compute. auto. Qed.
Example C92_unique_ex : lie_type_perm (mk_mat 2 2 [2; -1; -2; 2]%Z) = Ok ([(tC, 2)], [0; 1]) /\
  straightens 2 (fun i j => nth (i * 2 + j) [2; -1; -2; 2]%Z 0%Z) [(tB, 2)] [1; 0] /\ canonical (tC, 2) = canonical (tB, 2).
Proof.
  split; [vm_compute; reflexivity|]. split; [|reflexivity]. split; [reflexivity|]. split; [apply perm_swap|].
  intros i j Hi Hj. do 2 (destruct i as [|i]; [do 2 (destruct j as [|j]; [reflexivity|]); lia|]). lia.
Qed.

Lemma offsets_at pre k post i : offsets_from i (pre ++ k :: post) -> c_offset k = i + length (flat_map c_position pre).
Proof.
  revert i. induction pre as [|c pre IH]; intros i H; cbn [app offsets_from flat_map length] in *; [rewrite (proj1 H); lia|].
  rewrite (IH _ (proj2 H)), app_length. lia.
Qed.
(** * C93: the diagram gives back the matrix *)
Theorem C93_entries (n : nat) (f : nat -> nat -> Z) (c : matrix Z) : is_mx c n n f -> n <= 32 ->
  gives (dynkin c) (fun d => d_rank d = n /\ forall i j, i < n -> j < n ->
    d_entry d i j = Ok (f i j) /\ edge_multiplicity d i j = Ok (f i j * f j i)%Z) (fun e => e = Thrown /\ ~ finite_type n f).
Proof.
  intros H L. eapply gives_mono; [apply (dynkin_ok n f c H L)|]. intros d [D _]. split; [apply (dg_star n f d D)|].
  intros i j Hi Hj. split; [apply (d_entry_ok n f d i j D Hi Hj)|apply (edge_multiplicity_ok n f d i j D Hi Hj)].
Qed.
(** the nodes of the components: the supports are disjoint and the positions list them, in the order of the offsets *)
Theorem C93_components (n : nat) (f : nat -> nat -> Z) (c : matrix Z) (d : diagram) : is_mx c n n f -> n <= 32 -> dynkin c = Ok d ->
  Permutation (d_perm d) (seq 0 n) /\
  (forall k, In k (d_comps d) -> forall i, In i (c_position k) <-> Z.testbit (c_support k) (Z.of_nat i) = true) /\
  (forall k i j, In k (d_comps d) -> In i (c_position k) -> j < n -> i <> j -> f i j <> 0%Z -> In j (c_position k)) /\
  (forall pre k post, d_comps d = pre ++ k :: post -> c_offset k = length (flat_map c_position pre)).
Proof.
  intros H L E. pose proof (dynkin_ok n f c H L) as G. rewrite E in G. destruct G as [D O]. split.
  - unfold d_perm. rewrite <- perm_of_comps. apply (dg_nodes n f d D).
  - pose proof (dg_comps n f d D) as F. rewrite Forall_forall in F. split; [|split].
    + intros k I1 i. destruct (F k I1) as [_ [_ Ls]]. apply Ls.
    + intros k i j I1 I2 Hj N NZ. destruct (F k I1) as [(_ & _ & _ & Cl) [_ Ls]]. apply Ls. apply (Cl i j (proj1 (Ls i) I2) Hj).
      assert (Hi : i < n). { assert (I3 : In i (d_perm d)) by (apply in_flat_map; exists k; split; assumption). unfold d_perm in I3. rewrite <- perm_of_comps in I3.
        apply (Permutation_in _ (dg_nodes n f d D)) in I3. apply in_seq in I3. lia. }
      unfold adjf. rewrite (proj2 (Nat.ltb_lt i n)), (proj2 (Nat.ltb_lt j n)), (proj2 (Nat.eqb_neq i j)), (proj2 (Z.eqb_neq _ _)) by assumption. reflexivity.
    + intros pre k post EQ. rewrite EQ in O. apply (offsets_at pre k post 0 O).
Qed.
Example C93_ex : exists d, dynkin mixed = Ok d /\ map c_offset (d_comps d) = [0; 2] /\
  d_entry d 0 3 = Ok (-3)%Z /\ edge_multiplicity d 1 2 = Ok 2%Z.
Proof. destruct (dynkin mixed) as [d|e] eqn:E; vm_compute in E; [|discriminate]. injection E as <-. eexists. split; [reflexivity|]. vm_compute. auto. Qed.
(** renumbering a diagram renumbers its matrix *)
Theorem C93_permute (n : nat) (f : nat -> nat -> Z) (c : matrix Z) (d : diagram) (pi : list nat) :
  is_mx c n n f -> n <= 32 -> dynkin c = Ok d -> permutes n pi ->
  gives (permute pi d) (fun d' => d_rank d' = n /\ forall i j, i < n -> j < n -> d_entry d' (nth i pi 0) (nth j pi 0) = Ok (f i j)) never.
Proof.
  intros H L E P. pose proof (dynkin_ok n f c H L) as G. rewrite E in G. destruct G as [D _].
  eapply gives_mono; [apply (permute_ok n f d pi D P)|]. intros d' (g & G1 & D'). split; [apply (dg_star n g d' D')|].
  intros i j Hi Hj. rewrite (d_entry_ok n g d' _ _ D') by (apply perm_bound; assumption). rewrite G1 by assumption. reflexivity.
Qed.
Example C93_permute_ex : exists d d', dynkin mixed = Ok d /\ permute [4; 3; 2; 1; 0] d = Ok d' /\ d_entry d' 4 1 = Ok (-3)%Z.
Proof.
  destruct (dynkin mixed) as [d|e] eqn:E; vm_compute in E; [|discriminate]. injection E as <-. eexists. eexists. split; [reflexivity|].
  split; [vm_compute; reflexivity|]. vm_compute. reflexivity.
Qed.

Print Assumptions C91_type.
Print Assumptions C91_type_only.
Print Assumptions C92_recognised.
Print Assumptions C92_not_square.
Print Assumptions C92_unique.
Print Assumptions C93_entries.
Print Assumptions C93_components.
Print Assumptions C93_permute.
