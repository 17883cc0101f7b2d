(** C94-C104: root systems built from a Cartan matrix. *)

From Coq Require Import List Arith ZArith Bool Lia Sorted.
From Verif Require Import VecModel RunModel RunProofs MatModel MatSpec MatRing MatProofs SizeModel BitsetSpec DynBits
  LieTypeModel LieTypeSpec DynkinModel DynProps RootModel RootSpec RootSys RootAcc RootUniq RootTop.
Import ListNotations.
Local Open Scope Z_scope.

(** [s] is the root system constructed from the matrix [c], of finite type and with entries [f] *)
Definition built (n : nat) (f : nat -> nat -> Z) (c : matrix Z) (pc : bool) (s : rootsys) : Prop :=
  (n <= 32)%nat /\ finite_type n f /\ is_mx c n n f /\ root_system c pc = Ok s.
Lemma type_finite n f c t pi : (n <= 32)%nat -> is_mx c n n f -> lie_type_perm c = Ok (t, pi) -> finite_type n f.
Proof. intros L H E. exists t, pi. exact (C91_type n f c t pi H L E). Qed.
Definition ent (k : nat) (l : list Z) (i j : nat) : Z := nth (i * k + j) l 0.
Definition g2 : matrix Z := mk_mat 2 2 [2; -1; -3; 2].
Definition b3 : matrix Z := mk_mat 3 3 [2; -1; 0;  -1; 2; -2;  0; -1; 2].
Lemma g2_ok : is_mx g2 2 2 (ent 2 (mdata g2)) /\ finite_type 2 (ent 2 (mdata g2)).
Proof.
  assert (H : is_mx g2 2 2 (ent 2 (mdata g2))).
  { split; [reflexivity|]. split; [reflexivity|]. split; [reflexivity|]. intros i j Hi Hj. do 2 (destruct i as [|i]; [do 2 (destruct j as [|j]; [reflexivity|]); lia|]). lia. }
  split; [exact H|]. apply (type_finite 2 _ g2 [(tG, 2%nat)] [0; 1]%nat); [lia|exact H|vm_compute; reflexivity].
Qed.
Lemma b3_ok : is_mx b3 3 3 (ent 3 (mdata b3)) /\ finite_type 3 (ent 3 (mdata b3)).
Proof.
  assert (H : is_mx b3 3 3 (ent 3 (mdata b3))).
  { split; [reflexivity|]. split; [reflexivity|]. split; [reflexivity|]. intros i j Hi Hj. do 3 (destruct i as [|i]; [do 3 (destruct j as [|j]; [reflexivity|]); lia|]). lia. }
  split; [exact H|]. apply (type_finite 3 _ b3 [(tB, 3%nat)] [0; 1; 2]%nat); [lia|exact H|vm_compute; reflexivity].
Qed.
(** two root systems used in the examples: G2 ordered by roots, B3 ordered by coroots *)
Definition done (r : res rootsys) : rootsys := match r with Ok s => s | Fail _ => mk_sys 0 false (mk_mat 0 0 []) [] [] [] end.
Definition G : rootsys := Eval vm_compute in done (root_system g2 false).
Definition B : rootsys := Eval vm_compute in done (root_system b3 true).
Lemma built_G : built 2 (ent 2 (mdata g2)) g2 false G.
Proof. destruct g2_ok as [H F]. split; [lia|]. split; [exact F|]. split; [exact H|]. vm_compute. reflexivity. Qed.
Lemma built_B : built 3 (ent 3 (mdata b3)) b3 true B.
Proof. destruct b3_ok as [H F]. split; [lia|]. split; [exact F|]. split; [exact H|]. vm_compute. reflexivity. Qed.

(** * C94: the constructor finds every root with its coroot exactly once *)
(** it never reads outside a table, runs out of fuel or meets the missing entries of its tables *)
Theorem C94_succeeds (n : nat) (f : nat -> nat -> Z) (c : matrix Z) (pc : bool) :
  (n <= 32)%nat -> finite_type n f -> is_mx c n n f -> exists s, root_system c pc = Ok s.
Proof. intros L F H. destruct (root_system_ok n f c pc L F H) as (s & E & _). exists s. exact E. Qed.
(** every number stands for a root and its coroot *)
Theorem C94_sound (n : nat) (f : nat -> nat -> Z) (c : matrix Z) (pc : bool) (s : rootsys) (a : nat) :
  built n f c pc s -> (a < num_roots s)%nat -> exists v w, root_any s a = Ok v /\ coroot_any s a = Ok w /\ root_coroot n f v w.
Proof. intros (L & F & H & E) Ha. destruct (top_numbers n f c pc s L F H E a Ha) as (E1 & E2 & R). exists (root_at s a), (coroot_at s a). auto. Qed.
(** every root has exactly one number, and its coroot is the one at that number *)
Theorem C94_complete (n : nat) (f : nat -> nat -> Z) (c : matrix Z) (pc : bool) (s : rootsys) (v w : list Z) :
  built n f c pc s -> root_coroot n f v w -> exists a, (a < num_roots s)%nat /\ root_any s a = Ok v /\ coroot_any s a = Ok w /\
    forall b, (b < num_roots s)%nat -> root_any s b = Ok v \/ coroot_any s b = Ok w -> b = a.
Proof.
  intros (L & F & H & E) R. destruct (top_every n f c pc s L F H E v w R) as (a & Ha & E1 & E2). exists a. split; [exact Ha|]. destruct (top_numbers n f c pc s L F H E a Ha) as (A1 & A2 & _).
  split; [congruence|]. split; [congruence|]. intros b Hb Q. destruct (top_numbers n f c pc s L F H E b Hb) as (B1 & B2 & _). apply (top_inj n f c pc s L F H E b a Hb Ha). destruct Q as [Q|Q]; [left|right]; congruence.
Qed.
(** the positive roots have the upper half of the numbers, beginning with the simple ones; opposite roots are found by
    reversing the numbers *)
Theorem C94_positions (n : nat) (f : nat -> nat -> Z) (c : matrix Z) (pc : bool) (s : rootsys) : built n f c pc s ->
  (forall a, (a < num_roots s)%nat -> ((num_pos s <= a)%nat <-> nonneg (root_at s a))) /\
  (forall i, (i < n)%nat -> root_any s (num_pos s + i) = Ok (basis n i) /\ coroot_any s (num_pos s + i) = Ok (basis n i)) /\
  (forall a, (a < num_roots s)%nat -> root_any s (num_roots s - 1 - a) = Ok (opp (root_at s a)) /\ coroot_any s (num_roots s - 1 - a) = Ok (opp (coroot_at s a))).
Proof.
  intros (L & F & H & E). split; [intros a Ha; apply (top_sign n f c pc s L F H E a Ha)|]. split.
  - intros i Hi. destruct (top_simple n f c pc s L F H E i Hi) as (Q & E1 & E2). destruct (top_numbers n f c pc s L F H E _ Q) as (A1 & A2 & _). split; congruence.
  - intros a Ha. destruct (top_minus n f c pc s L F H E a Ha) as (Q & E1 & E2). destruct (top_numbers n f c pc s L F H E _ Q) as (A1 & A2 & _).
    replace (num_roots s - 1 - a)%nat with (minus_nr (num_pos s) a) by (unfold minus_nr, num_roots in *; lia). split; congruence.
Qed.
(** no coefficient of a root or coroot leaves the range of a signed byte *)
Theorem C94_bytes (n : nat) (f : nat -> nat -> Z) (v w : list Z) (k : nat) :
  (n <= 32)%nat -> finite_type n f -> root_coroot n f v w -> -128 < co v k < 128 /\ -128 < co w k < 128.
Proof.
  intros L F R. destruct (mx_of n f) as [c H]. destruct (C94_succeeds n f c false L F H) as [s E]. destruct (top_every n f c false s L F H E v w R) as (a & Ha & <- & <-).
  rewrite (proj2 (at_rt n f c false s L F H E a Ha)), (proj2 (at_crt n f c false s L F H E a Ha)). destruct (top_good n f F) as [g g'].
  pose proof (crt_byte n f s (top_some n f c false s L H E ltac:(lia)) g g' (proj1 (top_system n f c false s L F H E)) a k Ha). lia.
Qed.
(** G2 and its twelve roots *)
Example C94_ex : built 2 (ent 2 (mdata g2)) g2 false G /\
  map (root_at G) (seq 0 12) = [[-3;-2]; [-3;-1]; [-2;-1]; [-1;-1]; [0;-1]; [-1;0]; [1;0]; [0;1]; [1;1]; [2;1]; [3;1]; [3;2]] /\
  map (coroot_at G) (seq 6 6) = [[1;0]; [0;1]; [1;3]; [2;3]; [1;1]; [1;2]].
Proof. split; [exact built_G|]. vm_compute. auto. Qed.

(** * C95: the positive roots are numbered by height *)
(** and for equal height by comparing coefficients from the last on; coroots are used instead of roots when they are
    preferred *)
Theorem C95_order (n : nat) (f : nat -> nat -> Z) (c : matrix Z) (pc : bool) (s : rootsys) (a b : nat) : built n f c pc s ->
  (num_pos s <= a < num_roots s)%nat -> (num_pos s <= b < num_roots s)%nat ->
  ((a < b)%nat <-> if pc then earlier (coroot_at s a) (coroot_at s b) else earlier (root_at s a) (root_at s b)).
Proof. intros (L & F & H & E) Ha Hb. rewrite (top_order n f c pc s L F H E a b Ha Hb). unfold sorting. destruct pc; reflexivity. Qed.
(** level and colevel are the heights *)
Theorem C95_level (n : nat) (f : nat -> nat -> Z) (c : matrix Z) (pc : bool) (s : rootsys) (a : nat) : built n f c pc s ->
  (a < num_roots s)%nat -> level_of r_root s a = Ok (height (root_at s a)) /\ level_of r_coroot s a = Ok (height (coroot_at s a)).
Proof. intros (L & F & H & E) Ha. apply (top_level n f c pc s L F H E a Ha). Qed.
(** in B3 the order by coroots differs from the order by roots *)
Example C95_ex : built 3 (ent 3 (mdata b3)) b3 true B /\
  map (coroot_at B) (seq 9 9) = [[1;0;0]; [0;1;0]; [0;0;1]; [1;1;0]; [0;1;1]; [1;1;1]; [0;2;1]; [1;2;1]; [2;2;1]] /\
  map (root_at B) (seq 9 9) = [[1;0;0]; [0;1;0]; [0;0;1]; [1;1;0]; [0;1;2]; [1;1;2]; [0;1;1]; [1;2;2]; [1;1;1]] /\
  level_of r_root B 17 = Ok 3 /\ level_of r_root B 16 = Ok 5.
Proof. split; [exact built_B|]. vm_compute. auto. Qed.

(** * C96: reflections and pairings *)
Theorem C96_reflected (n : nat) (f : nat -> nat -> Z) (c : matrix Z) (pc : bool) (s : rootsys) (a b : nat) : built n f c pc s ->
  (a < num_roots s)%nat -> (b < num_roots s)%nat -> exists d, reflected s a b = Ok d /\ (d < num_roots s)%nat /\
    root_at s d = reflect n f (root_at s a) (coroot_at s a) (root_at s b) /\
    coroot_at s d = reflect n (flip f) (coroot_at s a) (root_at s a) (coroot_at s b).
Proof. intros (L & F & H & E). apply (top_reflected n f c pc s L F H E). Qed.
Theorem C96_simple_reflected (n : nat) (f : nat -> nat -> Z) (c : matrix Z) (pc : bool) (s : rootsys) (i b : nat) : built n f c pc s ->
  (i < n)%nat -> (b < num_roots s)%nat -> exists d, simple_reflected s i b = Ok d /\ (d < num_roots s)%nat /\
    root_at s d = sreflect n f i (root_at s b) /\ coroot_at s d = sreflect n (flip f) i (coroot_at s b).
Proof. intros (L & F & H & E). apply (top_simple_reflected n f c pc s L F H E). Qed.
(** words in the simple reflections act from the left or from the right *)
Theorem C96_permuted (n : nat) (f : nat -> nat -> Z) (c : matrix Z) (pc : bool) (s : rootsys) (ww : list nat) (a : nat) : built n f c pc s ->
  Forall (fun i => (i < n)%nat) ww -> (a < num_roots s)%nat ->
  (exists b, permuted_left s ww a = Ok b /\ (b < num_roots s)%nat /\ root_at s b = word_act n f ww (root_at s a)) /\
  (exists b, permuted_right s a ww = Ok b /\ (b < num_roots s)%nat /\ root_at s b = word_act n f (rev ww) (root_at s a)).
Proof. intros (L & F & H & E). apply (top_permuted n f c pc s L F H E). Qed.
(** the pairing of a root and a coroot *)
Theorem C96_bracket (n : nat) (f : nat -> nat -> Z) (c : matrix Z) (pc : bool) (s : rootsys) (a b : nat) : built n f c pc s ->
  (a < num_roots s)%nat -> (b < num_roots s)%nat -> bracket s a b = Ok (value n f (root_at s a) (coroot_at s b)).
Proof. intros (L & F & H & E). apply (top_bracket n f c pc s L F H E). Qed.
Theorem C96_orthogonal (n : nat) (f : nat -> nat -> Z) (c : matrix Z) (pc : bool) (s : rootsys) (a b : nat) : built n f c pc s ->
  (a < num_roots s)%nat -> (b < num_roots s)%nat -> exists t, is_orthogonal s a b = Ok t /\ (t = true <-> value n f (root_at s b) (coroot_at s a) = 0).
Proof. intros (L & F & H & E). apply (top_orthogonal n f c pc s L F H E). Qed.
(** the Cartan matrix of a list of roots *)
Theorem C96_Cartan (n : nat) (f : nat -> nat -> Z) (c : matrix Z) (pc : bool) (s : rootsys) (rb : list nat) : built n f c pc s ->
  Forall (fun a => (a < num_roots s)%nat) rb -> exists M, Cartan_of s rb = Ok M /\
    is_mx M (length rb) (length rb) (fun i j => value n f (root_at s (nth i rb 0%nat)) (coroot_at s (nth j rb 0%nat))).
Proof. intros (L & F & H & E). apply (top_Cartan n f c pc s L F H E). Qed.
Example C96_ex : built 2 (ent 2 (mdata g2)) g2 false G /\ reflected G 9 11 = Ok 1%nat /\ bracket G 9 11 = Ok 1 /\ bracket G 11 9 = Ok 3 /\
  is_orthogonal G 9 7 = Ok true /\ permuted_left G [0; 1]%nat 7 = Ok 1%nat /\ permuted_right G 7 [0; 1]%nat = Ok 11%nat /\
  Cartan_of G [8; 11; 3]%nat = Ok (mk_mat 3 3 [2; 1; -2;  3; 2; -3;  -2; -1; 2]).
Proof. split; [exact built_G|]. vm_compute. auto 10. Qed.

(** * C97: sums of roots *)
(** sum_is_root and sum_is_coroot read the tables of ladder bottoms *)
Theorem C97_sum (n : nat) (f : nat -> nat -> Z) (c : matrix Z) (pc : bool) (s : rootsys) (a b : nat) : built n f c pc s ->
  (a < num_roots s)%nat -> (b < num_roots s)%nat ->
  (exists t, sum_is_root s a b = Ok t /\ (t = true <-> is_root n f (plus n (root_at s b) (root_at s a)))) /\
  (exists t, sum_is_coroot s a b = Ok t /\ (t = true <-> is_root n (flip f) (plus n (coroot_at s b) (coroot_at s a)))).
Proof. intros (L & F & H & E). apply (top_sum n f c pc s L F H E). Qed.
(** the walls of the fundamental alcove: the simple roots, and the negative roots whose coroots are the bottom of every
    ladder for a simple coroot *)
Theorem C97_walls (n : nat) (f : nat -> nat -> Z) (c : matrix Z) (pc : bool) (s : rootsys) : built n f c pc s ->
  exists W, alcove_walls s = Ok W /\ length W = num_roots s /\ forall a, (a < num_roots s)%nat ->
    (bmem W a = true <-> (num_pos s <= a < num_pos s + n)%nat \/
      ((a < num_pos s)%nat /\ forall i, (i < n)%nat -> ~ is_root n (flip f) (away n (coroot_at s a) 1 (basis n i)))).
Proof. intros (L & F & H & E). apply (top_walls n f c pc s L F H E). Qed.
Example C97_ex : built 3 (ent 3 (mdata b3)) b3 true B /\ sum_is_root B 11 11 = Ok false /\ sum_is_root B 15 11 = Ok true /\ sum_is_root B 15 17 = Ok true /\
  sum_is_coroot B 15 17 = Ok false /\ sum_is_coroot B 13 10 = Ok true /\
  exists W, alcove_walls B = Ok W /\ members W = [0; 9; 10; 11]%nat.
Proof. split; [exact built_B|]. do 5 (split; [vm_compute; reflexivity|]). eexists. split; vm_compute; reflexivity. Qed.

(** * C98: descents and dominant roots *)
Theorem C98_descent_sets (n : nat) (f : nat -> nat -> Z) (c : matrix Z) (pc : bool) (s : rootsys) (a : nat) : built n f c pc s ->
  (a < num_roots s)%nat -> exists d e, descent_set s a = Ok d /\ ascent_set s a = Ok e /\ is32 d /\ is32 e /\
    (forall i, mem d i = true <-> (i < n)%nat /\ 0 < pairing n f (root_at s a) i) /\
    (forall i, mem e i = true <-> (i < n)%nat /\ pairing n f (root_at s a) i < 0).
Proof. intros (L & F & H & E). apply (top_descents n f c pc s L F H E). Qed.
(** the comparison of numbers decides in the same way *)
Theorem C98_is_descent (n : nat) (f : nat -> nat -> Z) (c : matrix Z) (pc : bool) (s : rootsys) (i a : nat) : built n f c pc s ->
  (i < n)%nat -> (a < num_roots s)%nat -> exists t u, is_descent s i a = Ok t /\ is_ascent s i a = Ok u /\
    (t = true <-> 0 < pairing n f (root_at s a) i) /\ (u = true <-> pairing n f (root_at s a) i < 0).
Proof. intros (L & F & H & E). apply (top_descent n f c pc s L F H E). Qed.
(** high_roots gives all dominant positive roots, from the highest number down *)
Theorem C98_high (n : nat) (f : nat -> nat -> Z) (c : matrix Z) (pc : bool) (s : rootsys) : built n f c pc s ->
  exists l, high_roots s = Ok l /\ StronglySorted gt l /\
    forall a, In a l <-> (num_pos s <= a < num_roots s)%nat /\ forall i, (i < n)%nat -> 0 <= pairing n f (root_at s a) i.
Proof. intros (L & F & H & E). apply (top_high n f c pc s L F H E). Qed.
(** not only the highest roots: a short dominant root is listed as well *)
Theorem C98_high_short : exists n f c pc s l, built n f c pc s /\ high_roots s = Ok l /\
  exists a i, In a l /\ (i < n)%nat /\ is_root n f (plus n (root_at s a) (basis n i)).
Proof.
  exists 2%nat, (ent 2 (mdata g2)), g2, false, G. eexists. split; [exact built_G|]. split; [vm_compute; reflexivity|]. exists 9%nat, 0%nat. split; [right; left; reflexivity|]. split; [lia|].
  exists (coroot_at G 10). replace (plus 2 (root_at G 9) (basis 2 0)) with (root_at G 10) by (vm_compute; reflexivity). destruct built_G as (L & F & H & E). apply (top_numbers 2 _ g2 false G L F H E 10). vm_compute. lia.
Qed.
Example C98_ex : built 2 (ent 2 (mdata g2)) g2 false G /\ high_roots G = Ok [11; 9]%nat /\ descent_set G 8 = Ok 2 /\ ascent_set G 8 = Ok 1 /\
  is_descent G 1 8 = Ok true /\ is_ascent G 0 8 = Ok true /\ is_descent G 0 7 = Ok false.
Proof. split; [exact built_G|]. vm_compute. auto 10. Qed.

(** * C99: the dual root system *)
(** it is, with all its tables, the one constructed from the transposed matrix with the other preference *)
Theorem C99_dual (n : nat) (f : nat -> nat -> Z) (c ct : matrix Z) (pc : bool) (s : rootsys) : built n f c pc s ->
  is_mx ct n n (flip f) -> dual_system s = root_system ct (negb pc).
Proof. intros (L & F & H & E) Ht. apply (dual_is_transposed n f c ct pc s L F H Ht E). Qed.
(** so that numbers keep their meaning with roots and coroots interchanged *)
Theorem C99_numbers (n : nat) (f : nat -> nat -> Z) (c : matrix Z) (pc : bool) (s : rootsys) : built n f c pc s ->
  exists s', dual_system s = Ok s' /\ num_roots s' = num_roots s /\
    forall a, (a < num_roots s)%nat -> root_any s' a = coroot_any s a /\ coroot_any s' a = root_any s a.
Proof.
  intros (L & F & H & E). destruct (top_system n f c pc s L F H E) as (Y & _). destruct (dual_system_ok n f s L F Y) as (s' & E' & _ & _ & R1 & R2 & _). exists s'. split; [exact E'|].
  assert (Ln : num_pos s' = num_pos s) by (unfold num_pos; rewrite <- (map_length r_root (s_ri s')), R1, map_length; reflexivity).
  split; [unfold num_roots; congruence|]. intros a _. unfold root_any, coroot_any, any_vec. rewrite Ln.
  assert (K : forall k, (run x <- vget (s_ri s') k; Ok (r_root x)) = (run x <- vget (s_ri s) k; Ok (r_coroot x)) /\ (run x <- vget (s_ri s') k; Ok (r_coroot x)) = (run x <- vget (s_ri s) k; Ok (r_root x))).
  { intros k. pose proof (f_equal (fun l => VecModel.get l k) R1) as Q1. pose proof (f_equal (fun l => VecModel.get l k) R2) as Q2. cbn beta in Q1, Q2. rewrite !RootBase.get_map in Q1, Q2. unfold vget. destruct (get (s_ri s') k), (get (s_ri s) k); cbn in *; split; congruence. }
  assert (K' : forall k, (run x <- vget (s_ri s') k; Ok (neg8 (r_root x))) = (run x <- vget (s_ri s) k; Ok (neg8 (r_coroot x))) /\ (run x <- vget (s_ri s') k; Ok (neg8 (r_coroot x))) = (run x <- vget (s_ri s) k; Ok (neg8 (r_root x)))).
  { intros k. destruct (K k) as [Q1 Q2]. destruct (vget (s_ri s') k), (vget (s_ri s) k); cbn in *; split; congruence. }
  destruct (is_pos (num_pos s) a); [apply K|apply K'].
Qed.
Example C99_ex : built 3 (ent 3 (mdata b3)) b3 true B /\ is_mx (mk_mat 3 3 [2; -1; 0;  -1; 2; -1;  0; -2; 2]) 3 3 (flip (ent 3 (mdata b3))) /\
  exists s', dual_system B = Ok s' /\ map (root_at s') (seq 15 3) = [[0;2;1]; [1;2;1]; [2;2;1]].
Proof.
  split; [exact built_B|]. split.
  - split; [reflexivity|]. split; [reflexivity|]. split; [reflexivity|]. intros i j Hi Hj. do 3 (destruct i as [|i]; [do 3 (destruct j as [|j]; [reflexivity|]); lia|]). lia.
  - eexists. split; vm_compute; reflexivity.
Qed.

(** * C100: automorphisms extend from the simple roots to all roots *)
Theorem C100_extend (n : nat) (f : nat -> nat -> Z) (c : matrix Z) (pc : bool) (s : rootsys) (im : list nat) : built n f c pc s ->
  length im = n -> (forall i, (i < n)%nat -> (nth i im 0 < num_roots s)%nat) ->
  (forall i j, (i < n)%nat -> (j < n)%nat -> value n f (root_at s (nth i im 0%nat)) (coroot_at s (nth j im 0%nat)) = f i j) ->
  exists r, extend_to_roots s im = Ok r /\ length r = num_roots s /\
    forall a, (a < num_roots s)%nat -> exists b, get r a = Some b /\ (b < num_roots s)%nat /\
      root_at s b = linear n (fun i => root_at s (nth i im 0%nat)) (root_at s a).
Proof. intros (L & F & H & E). apply (top_extend n f c pc s L F H E). Qed.
(** the permutation of the roots for an automorphism of the diagram *)
Theorem C100_twist (n : nat) (f : nat -> nat -> Z) (c : matrix Z) (pc : bool) (s : rootsys) (tw : list nat) : built n f c pc s ->
  length tw = n -> (forall i, (i < n)%nat -> (nth i tw 0 < n)%nat) ->
  (forall i j, (i < n)%nat -> (j < n)%nat -> f (nth i tw 0%nat) (nth j tw 0%nat) = f i j) ->
  exists r, twist_permutation s tw = Ok r /\ length r = num_roots s /\
    forall a, (a < num_roots s)%nat -> exists b, get r a = Some b /\ (b < num_roots s)%nat /\
      root_at s b = linear n (fun i => basis n (nth i tw 0%nat)) (root_at s a).
Proof. intros (L & F & H & E). apply (top_twist n f c pc s L F H E). Qed.
Definition a3 : matrix Z := mk_mat 3 3 [2; -1; 0;  -1; 2; -1;  0; -1; 2].
Lemma a3_ok : is_mx a3 3 3 (ent 3 (mdata a3)) /\ finite_type 3 (ent 3 (mdata a3)).
Proof.
  assert (H : is_mx a3 3 3 (ent 3 (mdata a3))).
  { split; [reflexivity|]. split; [reflexivity|]. split; [reflexivity|]. intros i j Hi Hj. do 3 (destruct i as [|i]; [do 3 (destruct j as [|j]; [reflexivity|]); lia|]). lia. }
  split; [exact H|]. apply (type_finite 3 _ a3 [(tA, 3%nat)] [0; 1; 2]%nat); [lia|exact H|vm_compute; reflexivity].
Qed.
Definition A : rootsys := Eval vm_compute in done (root_system a3 false).
Lemma built_A : built 3 (ent 3 (mdata a3)) a3 false A.
Proof. destruct a3_ok as [H F]. split; [lia|]. split; [exact F|]. split; [exact H|]. vm_compute. reflexivity. Qed.
Example C100_ex : built 3 (ent 3 (mdata a3)) a3 false A /\ twist_permutation A [2; 1; 0]%nat = Ok [0; 2; 1; 5; 4; 3; 8; 7; 6; 10; 9; 11]%nat /\
  Cartan_of A [7; 8; 0]%nat = Ok a3 /\ extend_to_roots A [7; 8; 0]%nat = Ok [6; 9; 1; 11; 3; 4; 7; 8; 0; 10; 2; 5]%nat.
Proof. split; [exact built_A|]. vm_compute. auto 10. Qed.

(** * C101: reflections as words *)
Theorem C101_word (n : nat) (f : nat -> nat -> Z) (c : matrix Z) (pc : bool) (s : rootsys) (a : nat) : built n f c pc s ->
  (a < num_roots s)%nat -> exists w i, reflection_word s a = Ok (w ++ [i] ++ rev w) /\ Forall (fun j => (j < n)%nat) (w ++ [i]) /\
    forall v, length v = n -> word_act n f (w ++ [i] ++ rev w) v = reflect n f (root_at s a) (coroot_at s a) v.
Proof. intros (L & F & H & E). apply (top_word n f c pc s L F H E). Qed.
Example C101_ex : built 3 (ent 3 (mdata b3)) b3 true B /\ reflection_word B 17 = Ok [0; 1; 2; 1; 0]%nat /\ reflection_word B 2 = Ok [1; 2; 1]%nat.
Proof. split; [exact built_B|]. vm_compute. auto. Qed.

(** * C102: searching for a root *)
(** lookup_root (rootdata.cpp:735-748) is meant to give the number of the root; the condition that chooses between
    positive and negative is the wrong way round *)
Theorem C102_lookup_refuted : exists n f c pc s a, built n f c pc s /\ (a < num_roots s)%nat /\
  lookup_root s (root_at s a) <> Ok a /\ lookup_coroot s (coroot_at s a) <> Ok a.
Proof. exists 2%nat, (ent 2 (mdata g2)), g2, false, G, 9%nat. split; [exact built_G|]. vm_compute. split; [lia|]. split; discriminate. Qed.
(** what is found is always the number of the opposite root *)
Theorem C102_lookup_opposite (n : nat) (f : nat -> nat -> Z) (c : matrix Z) (pc : bool) (s : rootsys) (a : nat) : built n f c pc s ->
  (a < num_roots s)%nat -> lookup_root s (root_at s a) = Ok (num_roots s - 1 - a)%nat /\ lookup_coroot s (coroot_at s a) = Ok (num_roots s - 1 - a)%nat.
Proof.
  intros (L & F & H & E) Ha. replace (num_roots s - 1 - a)%nat with (minus_nr (num_pos s) a) by (unfold minus_nr, num_roots in *; lia). apply (top_lookup n f c pc s L F H E a Ha).
Qed.
(** a vector that is not a root gets the number after the last one *)
Theorem C102_lookup_absent (n : nat) (f : nat -> nat -> Z) (c : matrix Z) (pc : bool) (s : rootsys) (v : list Z) : built n f c pc s ->
  (forall k, -128 <= co v k <= 127) -> (0 < n)%nat ->
  (~ is_root n f v -> lookup_root s v = Ok (num_roots s)) /\ (~ is_root n (flip f) v -> lookup_coroot s v = Ok (num_roots s)).
Proof. intros (L & F & H & E). apply (top_lookup_not n f c pc s L F H E). Qed.
(** accordingly root_add and coroot_add give the opposite of the sum *)
Theorem C102_add_opposite (n : nat) (f : nat -> nat -> Z) (c : matrix Z) (pc : bool) (s : rootsys) (a b d : nat) : built n f c pc s ->
  (a < num_roots s)%nat -> (b < num_roots s)%nat -> (d < num_roots s)%nat ->
  (root_at s d = plus n (root_at s a) (root_at s b) -> root_add s a b = Ok (num_roots s - 1 - d)%nat) /\
  (coroot_at s d = plus n (coroot_at s a) (coroot_at s b) -> coroot_add s a b = Ok (num_roots s - 1 - d)%nat).
Proof.
  intros (L & F & H & E) Ha Hb Hd. replace (num_roots s - 1 - d)%nat with (minus_nr (num_pos s) d) by (unfold minus_nr, num_roots in *; lia). apply (top_add n f c pc s L F H E a b d Ha Hb Hd).
Qed.
Theorem C102_add_refuted : exists n f c pc s a b d, built n f c pc s /\ (a < num_roots s)%nat /\ (b < num_roots s)%nat /\
  root_at s d = plus n (root_at s a) (root_at s b) /\ root_add s a b <> Ok d.
Proof. exists 2%nat, (ent 2 (mdata g2)), g2, false, G, 6%nat, 7%nat, 8%nat. split; [exact built_G|]. vm_compute. split; [lia|]. split; [lia|]. split; [reflexivity|discriminate]. Qed.
Example C102_ex : built 2 (ent 2 (mdata g2)) g2 false G /\ lookup_root G [2; 1] = Ok 2%nat /\ lookup_root G [-2; -1] = Ok 9%nat /\
  lookup_root G [1; 2] = Ok 12%nat /\ lookup_coroot G [1; 2] = Ok 0%nat /\ root_add G 6 7 = Ok 3%nat /\ root_at G 8 = plus 2 (root_at G 6) (root_at G 7).
Proof. split; [exact built_G|]. vm_compute. auto 10. Qed.

(** * C103: simple roots of a subsystem *)
(** for a set of roots closed under its own reflections, simpleBasis gives the members that are positive and not a sum of
    two positive members *)
Theorem C103_basis (n : nat) (f : nat -> nat -> Z) (c : matrix Z) (pc : bool) (s : rootsys) (S : bset) : built n f c pc s ->
  length S = num_roots s -> (forall a b d, bmem S a = true -> bmem S b = true -> reflected s a b = Ok d -> bmem S d = true) ->
  exists l, simple_basis s S = Ok l /\ StronglySorted lt l /\
    forall a, In a l <-> bmem S a = true /\ (num_pos s <= a)%nat /\
      ~ exists b d, bmem S b = true /\ (num_pos s <= b)%nat /\ bmem S d = true /\ (num_pos s <= d)%nat /\ root_at s a = plus n (root_at s b) (root_at s d).
Proof. intros (L & F & H & E) LS R. apply (top_basis n f c pc s L F H E S LS R). Qed.
(** every positive member is a sum of them, and their pairings are not positive *)
Theorem C103_generate (n : nat) (f : nat -> nat -> Z) (c : matrix Z) (pc : bool) (s : rootsys) (S : bset) : built n f c pc s ->
  length S = num_roots s -> (forall a b d, bmem S a = true -> bmem S b = true -> reflected s a b = Ok d -> bmem S d = true) ->
  exists l, simple_basis s S = Ok l /\
    (forall a, bmem S a = true -> (num_pos s <= a)%nat -> exists ms, incl ms l /\ root_at s a = vsum n (map (root_at s) ms)) /\
    (forall a b, In a l -> In b l -> a <> b -> value n f (root_at s a) (coroot_at s b) <= 0).
Proof. intros (L & F & H & E) LS R. apply (top_basis_sums n f c pc s L F H E S LS R). Qed.
(** pos_simples, given only the positive members, finds the same roots *)
Theorem C103_pos_simples (n : nat) (f : nat -> nat -> Z) (c : matrix Z) (pc : bool) (s : rootsys) (S ps : bset) : built n f c pc s ->
  length S = num_roots s -> (forall a b d, bmem S a = true -> bmem S b = true -> reflected s a b = Ok d -> bmem S d = true) ->
  length ps = num_pos s -> (forall k, (k < num_pos s)%nat -> bmem ps k = bmem S (num_pos s + k)) -> pos_simples s ps = simple_basis s S.
Proof. intros (L & F & H & E) LS R. apply (top_pos_simples n f c pc s L F H E S LS R). Qed.
(** the long roots of G2 form a subsystem of type A2 *)
Definition long : bset := map (fun a => existsb (Nat.eqb a) [0; 1; 4; 7; 10; 11]%nat) (seq 0 12).
Example C103_ex : built 2 (ent 2 (mdata g2)) g2 false G /\ length long = num_roots G /\
  (forall a b d, bmem long a = true -> bmem long b = true -> reflected G a b = Ok d -> bmem long d = true) /\
  simple_basis G long = Ok [7; 10]%nat /\ pos_simples G (skipn 6 long) = Ok [7; 10]%nat.
Proof.
  split; [exact built_G|]. split; [reflexivity|]. split; [|vm_compute; auto].
  assert (K : forallb (fun a => forallb (fun b => match reflected G a b with Ok d => negb (bmem long a && bmem long b) || bmem long d | Fail _ => true end) (seq 0 12)) (seq 0 12) = true) by (vm_compute; reflexivity).
  intros a b d Ha Hb E. assert (La : (a < 12)%nat) by (destruct (le_lt_dec 12 a) as [Q|Q]; [unfold bmem in Ha; rewrite nth_overflow in Ha by exact Q; discriminate|exact Q]).
  assert (Lb : (b < 12)%nat) by (destruct (le_lt_dec 12 b) as [Q|Q]; [unfold bmem in Hb; rewrite nth_overflow in Hb by exact Q; discriminate|exact Q]).
  rewrite forallb_forall in K. pose proof (K a ltac:(apply in_seq; lia)) as K1. cbn beta in K1. rewrite forallb_forall in K1. pose proof (K1 b ltac:(apply in_seq; lia)) as K2. cbn beta in K2. rewrite E, Ha, Hb in K2. exact K2.
Qed.

Print Assumptions C94_succeeds.
Print Assumptions C94_sound.
Print Assumptions C94_complete.
Print Assumptions C94_positions.
Print Assumptions C94_bytes.
Print Assumptions C95_order.
Print Assumptions C95_level.
Print Assumptions C96_reflected.
Print Assumptions C96_simple_reflected.
Print Assumptions C96_permuted.
Print Assumptions C96_bracket.
Print Assumptions C96_orthogonal.
Print Assumptions C96_Cartan.
Print Assumptions C97_sum.
Print Assumptions C97_walls.
Print Assumptions C98_descent_sets.
Print Assumptions C98_is_descent.
Print Assumptions C98_high.
Print Assumptions C98_high_short.
Print Assumptions C99_dual.
Print Assumptions C99_numbers.
Print Assumptions C100_extend.
Print Assumptions C100_twist.
Print Assumptions C101_word.
Print Assumptions C102_lookup_refuted.
Print Assumptions C102_lookup_opposite.
Print Assumptions C102_lookup_absent.
Print Assumptions C102_add_opposite.
Print Assumptions C102_add_refuted.
Print Assumptions C103_basis.
Print Assumptions C103_generate.
Print Assumptions C103_pos_simples.
