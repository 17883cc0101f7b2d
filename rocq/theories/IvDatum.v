(** Involutions given by matrices acting on a root datum. *)

From Coq Require Import List Arith ZArith Bool Lia Sorted.
From Verif Require Import VecModel RunModel RunProofs MatModel MatSpec MatLin MatRing MatProofs LieTypeSpec RootModel RootSpec RootMath RootForm RootFin RootBase RootAcc RootUniq RootExt RootTop RootProps
  DatModel DatSpec DatMath DatProofs DatOps DatPre DfSpec DfInv IvModel IvSpec IvProofs.
Import ListNotations.
Local Open Scope Z_scope.

(** the weight with the number given *)
Definition weight (d : datum) (a : nat) : list Z := match d_root d a with Ok x => x | Fail _ => [] end.

Section Datum.
Variable fits : Z -> bool.
Variables (r n : nat) (A B : nat -> nat -> Z) (p : predatum) (d : datum).
Notation al := (fcol r A).
Notation be := (fcol r B).
Notation C := (fun i j => dot r (al i) (be j)).
Hypothesis K : datum_ok r n A B p d.
Notation s := (d_sys d).
Notation emb := (comb r n al).
Notation coemb := (comb r n be).
Lemma weight_eq a : (a < num_roots s)%nat -> weight d a = emb (root_at s a).
Proof. intros H. unfold weight. rewrite (proj1 (d_root_run r n A B p d K a H)). reflexivity. Qed.
Lemma at_len a : (a < num_roots s)%nat -> length (root_at s a) = n.
Proof. intros H. apply (root_length n C). exists (coroot_at s a). apply (k_at r n A B p d K a H). Qed.
Lemma emb_eq u v : length u = n -> length v = n -> emb u = emb v -> u = v.
Proof. intros Lu Lv. apply (emb_inj r n al be C); [intros; reflexivity|apply (k_good r n A B p d K)|exact Lu|exact Lv]. Qed.
Lemma emb_opp v : emb (opp v) = opp (emb v). Proof. apply comb_opp. Qed.
Lemma emb_linear (h : nat -> list Z) v k : (k < r)%nat -> co (emb (linear n h v)) k = zsum n (fun j => co v j * co (emb (h j)) k).
Proof.
  intros Hk. rewrite co_comb by exact Hk. rewrite (zsum_ext n (fun i => co (linear _ _ _) i * _) (fun i => zsum n (fun j => co v j * (co (h j) i * co (al i) k)))).
  - rewrite zsum_swap. apply zsum_ext. intros j Hj. rewrite zsum_mul_l. f_equal. rewrite co_comb by exact Hk. reflexivity.
  - intros i Hi. unfold linear. rewrite co_map by exact Hi. rewrite (Z.mul_comm (zsum _ _)), <- zsum_mul_l. apply zsum_ext. intros j Hj. lia.
Qed.
Lemma image_emb g v k : (k < r)%nat -> co (image_by r g (emb v)) k = zsum n (fun j => co v j * co (image_by r g (al j)) k).
Proof.
  intros Hk. unfold image_by. rewrite co_comb by exact Hk. rewrite (zsum_ext r _ (fun i => zsum n (fun j => co v j * (co (al j) i * co (fcol r g i) k)))).
  - rewrite zsum_swap. apply zsum_ext. intros j Hj. rewrite zsum_mul_l. f_equal. rewrite co_comb by exact Hk. reflexivity.
  - intros i Hi. rewrite co_comb by exact Hi. rewrite (Z.mul_comm (zsum _ _)), <- zsum_mul_l. apply zsum_ext. intros j Hj. lia.
Qed.
Theorem perm_run q g : is_mx q r r g -> automorphism r n A B g ->
  gives (rootPermutation fits d q) (fun l => (exists h, moves s (root_at s) (linear n h) l) /\ moves s (weight d) (image_by r g) l) (overflows fits).
Proof.
  intros Hq Aq. set (b := fun i => root_index d (image_by r g (al i))). destruct (k_sys _ _ _ _ _ _ K) as [c bt].
  assert (X : forall i, (i < n)%nat -> (b i < num_roots s)%nat /\ image_by r g (al i) = emb (root_at s (b i)) /\ forall v, length v = r -> dot r (image_by r g v) (coemb (coroot_at s (b i))) = dot r v (be i)).
  { intros i Hi. destruct (Aq i Hi) as (u & w & Rc & E1 & E2). destruct bt as (n32 & ft & mc & made). destruct (top_every n C c _ s n32 ft mc made _ _ Rc) as (a & Ha & E3 & E4).
    assert (Eb : b i = a) by (unfold b; rewrite E1, <- E3; apply (root_index_run r n A B p d K a Ha)). rewrite Eb. split; [exact Ha|]. rewrite E3, E4. split; [exact E1|exact E2]. }
  eapply gives_mono; [apply (rootPermutation_run r n A B p d K fits q g b Hq)|].
  - intros i Hi. destruct (X i Hi) as (X1 & X2 & _). split; [exact X1|exact X2].
  - intros i j Hi Hj. destruct (X i Hi) as (_ & X2 & _). destruct (X j Hj) as (_ & _ & X3). rewrite <- X2. apply X3. apply fcol_length.
  - intros l (Ll & Hl). split.
    + exists (fun i => root_at s (b i)). split; [exact Ll|]. intros a Ha. destruct (Hl a Ha) as (x & G & Hx & Q). exists x. split; [exact G|]. split; [exact Hx|]. apply emb_eq; [apply at_len; exact Hx|apply linear_length|]. rewrite <- Q.
      apply vec_ext; [rewrite !comb_length; reflexivity|]. intros k Hk. rewrite comb_length in Hk. rewrite emb_linear by exact Hk. change (comb r r (fcol r g)) with (image_by r g). rewrite image_emb by exact Hk. apply zsum_ext. intros j Hj. rewrite (proj1 (proj2 (X j Hj))). reflexivity.
    + split; [exact Ll|]. intros a Ha. destruct (Hl a Ha) as (x & G & Hx & Q). exists x. split; [exact G|]. split; [exact Hx|]. rewrite !weight_eq by assumption. symmetry. exact Q.
Qed.
(** the permutation in terms of weights *)
Lemma weight_perm g l a t : moves s (weight d) (image_by r g) l -> (a < num_roots s)%nat -> (t < num_roots s)%nat -> (get l a = Some t <-> image_by r g (weight d a) = weight d t).
Proof.
  intros (_ & M) Ha Ht. destruct (M a Ha) as (x & G & Hx & Q). rewrite G, <- Q. split; [intros J; injection J as ->; reflexivity|]. intros J. f_equal. destruct (k_sys _ _ _ _ _ _ K) as [c (n32 & ft & mc & made)].
  apply (top_inj n C c _ s n32 ft mc made x t Hx Ht). left. rewrite !weight_eq in J by assumption. apply emb_eq; [apply at_len; exact Hx|apply at_len; exact Ht|exact J].
Qed.
Lemma weight_minus a : (a < num_roots s)%nat -> weight d (num_roots s - 1 - a) = opp (weight d a).
Proof.
  intros Ha. destruct (k_sys _ _ _ _ _ _ K) as [c (n32 & ft & mc & made)]. destruct (top_minus n C c _ s n32 ft mc made a Ha) as (Hm & E & _). change (minus_nr (num_pos s) a) with (num_roots s - 1 - a)%nat in *. rewrite !weight_eq, E by assumption. apply emb_opp.
Qed.
End Datum.
