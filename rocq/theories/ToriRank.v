(** Lattices with an involution: the eigenlattices and their images modulo 2. *)

From Coq Require Import List Arith ZArith Bool Lia.
From Verif Require Import MatModel MatSpec MatProofs MatRing MatLin RedSpec LatSpec DatSub ToriSpec ToriLat.
Import ListNotations.
Local Open Scope Z_scope.

(** ** ranks of lattices *)
Lemma rank_le n k m u h : DatSub.independent n k u -> (forall j, (j < k)%nat -> exists c, forall i, (i < n)%nat -> u i j = fapply m h c i) -> (k <= m)%nat.
Proof.
  intros I H. destruct (finite_choice k (fun j c => forall i, (i < n)%nat -> u i j = fapply m h c i) (fun _ => 0) H) as (C & HC).
  apply (independent_wide m k (fun i j => C j i)). intros c Z0. apply I. intros i Hi.
  transitivity (fapply m h (fapply k (fun i j => C j i) c) i); [rewrite fapply_fapply; apply fapply_mat; intros j Hj; rewrite (HC j Hj i Hi); reflexivity|].
  unfold fapply at 1. apply zsum_zero. intros j Hj. rewrite (Z0 j Hj). lia.
Qed.
Lemma column_is k u j i : (j < k)%nat -> u i j = fapply k u (fun l => delta l j) i.
Proof. intros H. unfold fapply. rewrite zsum_delta_r by exact H. reflexivity. Qed.
Lemma basis_rank n k m g h P : basis_of n k g P -> basis_of n m h P -> k = m.
Proof.
  intros (P1 & I1) (P2 & I2). apply Nat.le_antisymm.
  - apply (rank_le n k m g h I1). intros j Hj. apply P2, P1. exists (fun l => delta l j). intros i Hi. apply column_is. exact Hj.
  - apply (rank_le n m k h g I2). intros j Hj. apply P1, P2. exists (fun l => delta l j). intros i Hi. apply column_is. exact Hj.
Qed.
Lemma basis_ext n k g P Q : (forall x, P x <-> Q x) -> basis_of n k g P -> basis_of n k g Q.
Proof. intros E (P1 & I1). split; [|exact I1]. intros x. rewrite <- E. apply P1. Qed.

(** ** ranks modulo 2 *)
Definition indep2 (n k : nat) (u : nat -> nat -> Z) : Prop :=
  forall c, (forall i, (i < n)%nat -> Z.even (fapply k u c i) = true) -> forall j, (j < k)%nat -> Z.even (c j) = true.
Lemma even_zsum n x : (forall i, (i < n)%nat -> Z.even (x i) = true) -> Z.even (zsum n x) = true.
Proof.
  intros H. apply Z.even_spec. destruct (zsum_div n 2 x) as (z & E); [|exists z; lia]. intros i Hi. apply H in Hi. apply Z.even_spec in Hi as (z & E). exists z. lia.
Qed.
Lemma even_fapply n f x i : (forall j, (j < n)%nat -> Z.even (x j) = true) -> Z.even (fapply n f x i) = true.
Proof. intros H. apply even_zsum. intros j Hj. rewrite Z.even_mul, (H j Hj). apply orb_true_r. Qed.
(** a wide matrix has a vector in its kernel with an odd entry *)
Lemma wide_odd m n f : (m < n)%nat -> exists c, (exists j, (j < n)%nat /\ Z.even (c j) = false) /\ forall i, (i < m)%nat -> fapply n f c i = 0.
Proof.
  intros L. destruct (wide_kernel m n f L) as (c & (j & Hj & N) & Z0).
  assert (G : forall b (c : nat -> Z), (exists j, (j < n)%nat /\ c j <> 0 /\ Z.abs (c j) < Z.of_nat b) -> (forall i, (i < m)%nat -> fapply n f c i = 0) ->
     exists c, (exists j, (j < n)%nat /\ Z.even (c j) = false) /\ forall i, (i < m)%nat -> fapply n f c i = 0).
  { clear. induction b; intros c (j & Hj & N & B) Z0; [lia|].
    assert (Dec : (forall i, (i < n)%nat -> Z.even (c i) = true) \/ exists i, (i < n)%nat /\ Z.even (c i) = false).
    { clear. induction n as [|k IH]; [left; intros; lia|]. destruct IH as [IH|(i & Hi & E)]; [|right; exists i; split; [lia|exact E]].
      destruct (Z.even (c k)) eqn:E; [left; intros i Hi; destruct (Nat.eq_dec i k) as [->|]; [exact E|apply IH; lia]|right; exists k; split; [lia|exact E]]. }
    destruct Dec as [D|D]; [|exists c; split; [exact D|exact Z0]].
    assert (H2 : forall i, (i < n)%nat -> c i = 2 * (c i / 2)) by (intros i Hi; apply D in Hi; apply Z.even_spec in Hi as (z & E); rewrite E, Z.mul_comm, Z.div_mul by lia; lia).
    apply (IHb (fun i => c i / 2)).
    - exists j. pose proof (H2 j Hj). split; [exact Hj|]. lia.
    - intros i Hi. pose proof (Z0 i Hi) as E. rewrite (fapply_ext n f c (fun i => 2 * (c i / 2))) in E by exact H2. rewrite fapply_scale in E. lia. }
  apply (G (S (Z.to_nat (Z.abs (c j)))) c); [|exact Z0]. exists j. split; [exact Hj|]. split; [exact N|]. lia.
Qed.
Lemma rank2_le n k m u h : indep2 n k u -> (forall j, (j < k)%nat -> exists c, forall i, (i < n)%nat -> Z.even (u i j - fapply m h c i) = true) -> (k <= m)%nat.
Proof.
  intros I H. destruct (le_lt_dec k m) as [Q|Q]; [exact Q|]. exfalso.
  destruct (finite_choice k (fun j c => forall i, (i < n)%nat -> Z.even (u i j - fapply m h c i) = true) (fun _ => 0) H) as (C & HC).
  destruct (wide_odd m k (fun i j => C j i) Q) as (c & (j & Hj & N) & Z0). rewrite (I c) in N; [discriminate| |exact Hj]. intros i Hi.
  replace (fapply k u c i) with (fapply k (fun i j => u i j - fapply m h (C j) i) c i + fapply m h (fapply k (fun i j => C j i) c) i).
  - assert (E1 : Z.even (fapply k (fun i j => u i j - fapply m h (C j) i) c i) = true) by (apply even_zsum; intros l Hl; rewrite Z.even_mul, (HC l Hl i Hi); reflexivity).
    rewrite Z.even_add, E1, (even_fapply m h); [reflexivity|]. intros l Hl. rewrite (Z0 l Hl). reflexivity.
  - rewrite fapply_fapply. unfold fapply at 1 3 4. rewrite <- zsum_add. apply zsum_ext. intros l Hl. unfold fmul, fapply. ring.
Qed.

(** ** coordinates for a normal form *)
Section Split.
Variables n a b c : nat.
Variables f g h : nat -> nat -> Z.
Hypothesis size : n = (a + b + (c + c))%nat.
Hypothesis inv : is_involution n f.
Hypothesis igh : inverses n g h.
Hypothesis fixa : forall j, (j < a)%nat -> forall i, (i < n)%nat -> fmul n f g i j = g i j.
Hypothesis negb : forall j, (a <= j < a + b)%nat -> forall i, (i < n)%nat -> fmul n f g i j = - g i j.
Hypothesis swpc : forall j, (a + b <= j < a + b + c)%nat -> forall i, (i < n)%nat -> fmul n f g i j = g i (j + c)%nat.

Lemma swp_back j i : (a + b + c <= j < n)%nat -> (i < n)%nat -> fmul n f g i j = g i (j - c)%nat.
Proof.
  intros Hj Hi. transitivity (fmul n f (fmul n f g) i (j - c)%nat).
  - unfold fmul at 1 2. apply zsum_ext. intros k Hk. rewrite (swpc (j - c)%nat) by lia. replace (j - c + c)%nat with j by lia. reflexivity.
  - rewrite <- fmul_assoc. transitivity (fmul n delta g i (j - c)%nat); [apply fmul_ext_row; intros k Hk; apply inv; auto|apply fmul_id_l; exact Hi].
Qed.
Lemma sum4 x : zsum n x = zsum a x + zsum b (fun j => x (a + j)%nat) + (zsum c (fun j => x (a + b + j)%nat) + zsum c (fun j => x (a + b + (c + j))%nat)).
Proof. rewrite size, zsum_split, zsum_split, (zsum_split c c). reflexivity. Qed.
Definition act (xi : nat -> Z) (j : nat) : Z :=
  if (j <? a)%nat then xi j else if (j <? a + b)%nat then - xi j else if (j <? a + b + c)%nat then xi (j + c)%nat else xi (j - c)%nat.
Ltac cmp := repeat match goal with |- context [Nat.ltb ?x ?y] => destruct (Nat.ltb_spec x y); try (exfalso; lia) end.
Lemma act_coords xi i : (i < n)%nat -> fapply n f (fapply n g xi) i = fapply n g (act xi) i.
Proof.
  intros Hi. rewrite fapply_fapply. unfold fapply. rewrite !sum4. f_equal; [f_equal|].
  - apply zsum_ext. intros j Hj. rewrite fixa by auto. unfold act. cmp; try reflexivity.
  - apply zsum_ext. intros j Hj. rewrite negb by lia. unfold act. cmp; try ring.
  - rewrite Z.add_comm. f_equal; apply zsum_ext; intros j Hj; unfold act; cmp.
    + rewrite swp_back by lia. f_equal; [f_equal; lia|f_equal; lia].
    + rewrite swpc by lia. f_equal; f_equal; lia.
Qed.
Lemma coords x i : (i < n)%nat -> fapply n g (fapply n h x) i = x i.
Proof. intros Hi. rewrite fapply_fapply, (fapply_mat n _ delta) by (intros j Hj; apply (proj1 igh); auto). apply fapply_delta. exact Hi. Qed.
Lemma coords_back xi i : (i < n)%nat -> fapply n h (fapply n g xi) i = xi i.
Proof. intros Hi. rewrite fapply_fapply, (fapply_mat n _ delta) by (intros j Hj; apply (proj2 igh); auto). apply fapply_delta. exact Hi. Qed.
Lemma coords_inj xi xi' : (forall i, (i < n)%nat -> fapply n g xi i = fapply n g xi' i) -> forall j, (j < n)%nat -> xi j = xi' j.
Proof. intros H j Hj. rewrite <- (coords_back xi j Hj), <- (coords_back xi' j Hj). apply fapply_ext. exact H. Qed.
Lemma coords_even xi : (forall i, (i < n)%nat -> Z.even (fapply n g xi i) = true) -> forall j, (j < n)%nat -> Z.even (xi j) = true.
Proof. intros H j Hj. rewrite <- (coords_back xi j Hj). apply even_fapply. exact H. Qed.
Lemma eigen_coords s xi : eigen n f s (fapply n g xi) <-> forall j, (j < n)%nat -> act xi j = s * xi j.
Proof.
  split; intros H.
  - apply coords_inj. intros i Hi. rewrite <- act_coords by exact Hi. rewrite H by exact Hi. rewrite <- fapply_scale. reflexivity.
  - intros i Hi. rewrite act_coords by exact Hi. rewrite <- fapply_scale. apply fapply_ext. exact H.
Qed.
Lemma eigen_ext s x y : (forall i, (i < n)%nat -> x i = y i) -> eigen n f s x -> eigen n f s y.
Proof. intros E H i Hi. rewrite <- (fapply_ext n f x y i E), <- E by exact Hi. apply H. exact Hi. Qed.

(** the +1 eigenlattice *)
Definition plus (i j : nat) : Z := if (j <? a)%nat then g i j else g i (b + j)%nat + g i (b + j + c)%nat.
Definition plus_emb (xi : nat -> Z) (j : nat) : Z :=
  if (j <? a)%nat then xi j else if (j <? a + b)%nat then 0 else if (j <? a + b + c)%nat then xi (j - b)%nat else xi (j - b - c)%nat.
Lemma plus_coords xi i : fapply (a + c) plus xi i = fapply n g (plus_emb xi) i.
Proof.
  unfold fapply. rewrite sum4, zsum_split. rewrite (zsum_zero b) by (intros j Hj; unfold plus_emb; cmp; ring).
  rewrite Z.add_0_r, <- zsum_add. f_equal; apply zsum_ext; intros j Hj; unfold plus, plus_emb; cmp; [reflexivity|].
  replace (a + b + j - b)%nat with (a + j)%nat by lia. replace (a + b + (c + j) - b - c)%nat with (a + j)%nat by lia.
  replace (b + (a + j))%nat with (a + b + j)%nat by lia. replace (a + b + j + c)%nat with (a + b + (c + j))%nat by lia. ring.
Qed.
Lemma plus_basis : basis_of n (a + c) plus (eigen n f 1).
Proof.
  split.
  - intros x. split.
    + intros H. assert (H' : eigen n f 1 (fapply n g (fapply n h x))) by (apply (eigen_ext 1 x); [intros i Hi; rewrite coords by exact Hi; reflexivity|exact H]).
      pose proof (proj1 (eigen_coords 1 (fapply n h x)) H') as E. set (xi := fapply n h x) in *.
      exists (fun j => if (j <? a)%nat then xi j else xi (b + j)%nat). intros i Hi. rewrite plus_coords. rewrite <- (coords x i Hi). apply fapply_ext. intros j Hj.
      specialize (E j Hj). unfold act in E. fold xi. unfold plus_emb. revert E. cmp; intros E; try lia.
      * f_equal; lia.
      * replace (b + (j - b - c))%nat with (j - c)%nat by lia. lia.
    + intros (c0 & H). apply (eigen_ext 1 (fapply n g (plus_emb c0))); [intros i Hi; rewrite H, plus_coords by exact Hi; reflexivity|].
      apply eigen_coords. intros j Hj. unfold act, plus_emb. cmp; try lia; rewrite ?Z.mul_1_l; f_equal; lia.
  - intros c0 H j Hj. assert (E : forall j, (j < n)%nat -> plus_emb c0 j = 0).
    { apply (coords_inj (plus_emb c0) (fun _ => 0)). intros i Hi. rewrite <- plus_coords, H by exact Hi. symmetry. unfold fapply. apply zsum_zero. intros; lia. }
    destruct (le_lt_dec a j) as [Q|Q].
    + specialize (E (b + j)%nat ltac:(lia)). unfold plus_emb in E. revert E. cmp. intros E. rewrite <- E. f_equal. lia.
    + specialize (E j ltac:(lia)). unfold plus_emb in E. revert E. cmp; auto.
Qed.
Lemma plus_indep2 : indep2 n (a + c) plus.
Proof.
  intros c0 H j Hj. assert (E : forall j, (j < n)%nat -> Z.even (plus_emb c0 j) = true) by (apply coords_even; intros i Hi; rewrite <- plus_coords; apply H; exact Hi).
  destruct (le_lt_dec a j) as [Q|Q].
  - specialize (E (b + j)%nat ltac:(lia)). unfold plus_emb in E. revert E. cmp. intros E. rewrite <- E. f_equal. f_equal. lia.
  - specialize (E j ltac:(lia)). unfold plus_emb in E. revert E. cmp; auto.
Qed.

(** the -1 eigenlattice *)
Definition minus (i j : nat) : Z := if (j <? b)%nat then g i (a + j)%nat else g i (a + j)%nat - g i (a + j + c)%nat.
Definition minus_emb (xi : nat -> Z) (j : nat) : Z :=
  if (j <? a)%nat then 0 else if (j <? a + b + c)%nat then xi (j - a)%nat else - xi (j - a - c)%nat.
Lemma minus_coords xi i : fapply (b + c) minus xi i = fapply n g (minus_emb xi) i.
Proof.
  unfold fapply. rewrite sum4, zsum_split. rewrite (zsum_zero a) by (intros j Hj; unfold minus_emb; cmp; ring).
  rewrite Z.add_0_l, <- zsum_add. f_equal; apply zsum_ext; intros j Hj; unfold minus, minus_emb; cmp; [f_equal; f_equal; lia|].
  replace (a + b + j - a)%nat with (b + j)%nat by lia. replace (a + b + (c + j) - a - c)%nat with (b + j)%nat by lia.
  replace (a + (b + j))%nat with (a + b + j)%nat by lia. replace (a + b + j + c)%nat with (a + b + (c + j))%nat by lia. ring.
Qed.
Lemma minus_basis : basis_of n (b + c) minus (eigen n f (-1)).
Proof.
  split.
  - intros x. split.
    + intros H. assert (H' : eigen n f (-1) (fapply n g (fapply n h x))) by (apply (eigen_ext (-1) x); [intros i Hi; rewrite coords by exact Hi; reflexivity|exact H]).
      pose proof (proj1 (eigen_coords (-1) (fapply n h x)) H') as E. set (xi := fapply n h x) in *.
      exists (fun j => xi (a + j)%nat). intros i Hi. rewrite minus_coords. rewrite <- (coords x i Hi). apply fapply_ext. intros j Hj.
      specialize (E j Hj). unfold act in E. fold xi. unfold minus_emb. revert E. cmp; intros E; try lia.
      * f_equal; lia.
      * f_equal; lia.
      * replace (a + (j - a - c))%nat with (j - c)%nat by lia. lia.
    + intros (c0 & H). apply (eigen_ext (-1) (fapply n g (minus_emb c0))); [intros i Hi; rewrite H, minus_coords by exact Hi; reflexivity|].
      apply eigen_coords. intros j Hj. unfold act, minus_emb. cmp; try lia.
      * replace (j + c - a - c)%nat with (j - a)%nat by lia. ring.
      * replace (j - c - a)%nat with (j - a - c)%nat by lia. ring.
  - intros c0 H j Hj. assert (E : forall j, (j < n)%nat -> minus_emb c0 j = 0).
    { apply (coords_inj (minus_emb c0) (fun _ => 0)). intros i Hi. rewrite <- minus_coords, H by exact Hi. symmetry. unfold fapply. apply zsum_zero. intros; lia. }
    specialize (E (a + j)%nat ltac:(lia)). unfold minus_emb in E. revert E. cmp. intros E. rewrite <- E. f_equal. lia.
Qed.

(** the sum of the eigenlattices modulo 2 *)
Definition both (i j : nat) : Z := if (j <? a + b)%nat then g i j else g i j + g i (j + c)%nat.
Definition both_emb (xi : nat -> Z) (j : nat) : Z := if (j <? a + b + c)%nat then xi j else xi (j - c)%nat.
Lemma both_coords xi i : fapply (a + b + c) both xi i = fapply n g (both_emb xi) i.
Proof.
  unfold fapply. rewrite sum4, (zsum_split (a + b) c), (zsum_split a b), <- (zsum_add c). f_equal; [f_equal|]; apply zsum_ext; intros j Hj; unfold both, both_emb; cmp; try reflexivity.
  replace (a + b + (c + j) - c)%nat with (a + b + j)%nat by lia. replace (a + b + j + c)%nat with (a + b + (c + j))%nat by lia. ring.
Qed.
Lemma both_indep2 : indep2 n (a + b + c) both.
Proof.
  intros c0 H j Hj. assert (E : forall j, (j < n)%nat -> Z.even (both_emb c0 j) = true) by (apply coords_even; intros i Hi; rewrite <- both_coords; apply H; exact Hi).
  specialize (E j ltac:(lia)). unfold both_emb in E. revert E. cmp; auto.
Qed.

(** the image of 1 plus the involution *)
Definition plus_act (xi : nat -> Z) (j : nat) : Z := xi j + act xi j.
Definition pairs (i j : nat) : Z := g i (a + b + j)%nat + g i (a + b + c + j)%nat.
Definition pairs_emb (xi : nat -> Z) (j : nat) : Z := if (j <? a + b)%nat then 0 else if (j <? a + b + c)%nat then xi (j - (a + b))%nat else xi (j - (a + b + c))%nat.
Lemma pairs_coords xi i : fapply c pairs xi i = fapply n g (pairs_emb xi) i.
Proof.
  unfold fapply. rewrite sum4. rewrite (zsum_zero a) by (intros j Hj; unfold pairs_emb; cmp; ring). rewrite (zsum_zero b) by (intros j Hj; unfold pairs_emb; cmp; ring).
  rewrite !Z.add_0_l, <- zsum_add. apply zsum_ext; intros j Hj; unfold pairs, pairs_emb; cmp.
  replace (a + b + j - (a + b))%nat with j by lia. replace (a + b + (c + j) - (a + b + c))%nat with j by lia. replace (a + b + (c + j))%nat with (a + b + c + j)%nat by lia. ring.
Qed.
Lemma pairs_indep2 : indep2 n c pairs.
Proof.
  intros c0 H j Hj. assert (E : forall j, (j < n)%nat -> Z.even (pairs_emb c0 j) = true) by (apply coords_even; intros i Hi; rewrite <- pairs_coords; apply H; exact Hi).
  specialize (E (a + b + j)%nat ltac:(lia)). unfold pairs_emb in E. revert E. cmp. intros E. rewrite <- E. f_equal. f_equal. lia.
Qed.
(** modulo 2, an element of the image is a combination of the pairs *)
Lemma image_pairs x : exists d, forall i, (i < n)%nat -> Z.even (fapply n f x i + x i - fapply c pairs d i) = true.
Proof.
  set (xi := fapply n h x). exists (fun j => xi (a + b + j)%nat + xi (a + b + c + j)%nat). intros i Hi.
  assert (E : fapply n f x i + x i = fapply n g (fun j => act xi j + xi j) i).
  { rewrite fapply_add, <- act_coords by exact Hi. rewrite (fapply_ext n f x (fapply n g xi)) by (intros j Hj; unfold xi; rewrite coords by exact Hj; reflexivity).
    f_equal. unfold xi. rewrite coords by exact Hi. reflexivity. }
  rewrite E, pairs_coords. replace (fapply n g (fun j => act xi j + xi j) i - fapply n g (pairs_emb (fun j => xi (a + b + j)%nat + xi (a + b + c + j)%nat)) i)
    with (fapply n g (fun j => act xi j + xi j + (-1) * pairs_emb (fun j => xi (a + b + j)%nat + xi (a + b + c + j)%nat) j) i) by (rewrite fapply_add, fapply_scale; ring).
  apply even_fapply. intros j Hj. unfold act, pairs_emb. cmp.
  - rewrite Z.mul_0_r, Z.add_0_r. apply Z.even_spec. exists (xi j). lia.
  - rewrite Z.mul_0_r, Z.add_0_r, Z.add_opp_diag_l. reflexivity.
  - replace (a + b + (j - (a + b)))%nat with j by lia. replace (a + b + c + (j - (a + b)))%nat with (j + c)%nat by lia. apply Z.even_spec. exists 0. lia.
  - replace (a + b + (j - (a + b + c)))%nat with (j - c)%nat by lia. replace (a + b + c + (j - (a + b + c)))%nat with j by lia. apply Z.even_spec. exists 0. lia.
Qed.
Lemma pairs_image d : exists x, forall i, (i < n)%nat -> fapply n f x i + x i = fapply c pairs d i.
Proof.
  exists (fapply n g (fun j => if (j <? a + b)%nat then 0 else if (j <? a + b + c)%nat then d (j - (a + b))%nat else 0)). intros i Hi.
  rewrite act_coords by exact Hi. rewrite <- fapply_add, pairs_coords. apply fapply_ext. intros j Hj. unfold act, pairs_emb. cmp; rewrite ?Z.add_0_l, ?Z.add_0_r; try lia. f_equal; lia.
Qed.
End Split.
