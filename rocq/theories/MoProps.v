(** C169, C170: strongly orthogonal sets of roots. *)

From Coq Require Import List Arith ZArith Bool Lia.
From Verif Require Import VecModel RunModel MatModel MatSpec RootModel RootSpec RootTop RootPerm RootProps MoModel MoSpec MoBase MoLong MoMax MoGrade.
Import ListNotations.
Local Open Scope Z_scope.

(** the set with the given members *)
Definition the_set (m : nat) (l : list nat) : bset := map (fun a => existsb (Nat.eqb a) l) (seq 0 m).

(** * C169: long_orthogonalize *)
(** an orthogonal set of positive roots becomes a strongly orthogonal one, of the same size and with the same product of
    reflections *)
Theorem C169_long (n : nat) (f : nat -> nat -> Z) (c : matrix Z) (pc : bool) (s : rootsys) (S : bset) : built n f c pc s ->
  length S = num_roots s -> (forall a, In a (members S) -> (num_pos s <= a)%nat) -> orthogonal n f (root_at s) (coroot_at s) (members S) ->
  exists T, long_orthogonalize s S = Ok T /\ length T = num_roots s /\ strongly_orthogonal n f (root_at s) (coroot_at s) (members T) /\
    length (members T) = length (members S) /\
    forall v, length v = n -> reflections n f (root_at s) (coroot_at s) (members T) v = reflections n f (root_at s) (coroot_at s) (members S) v.
Proof.
  intros K LS P [_ O]. assert (PO : pairwise n f s S) by (intros x y Hx Hy; apply O; apply (in_members s S _ LS); assumption).
  destruct (long_run n f c pc s K S LS (fun x Hx => P x (proj2 (in_members s S x LS) Hx)) PO S S) as (T & E & LT & OT & _ & _ & DT & (C1 & C2) & _).
  exists T. split; [exact E|]. split; [exact LT|]. split; [|split].
  - split; [apply (members_orth n f s T LT OT)|]. intros a b Ha Hb Nab. apply (in_members s T _ LT) in Ha, Hb. pose proof (mem_lt s T a LT Ha) as La. pose proof (mem_lt s T b LT Hb) as Lb.
    assert (A : ~ addable n f (root_at s) a b).
    { intros A. destruct (Nat.lt_ge_cases b a) as [Q|Q]; [exact (DT a b Ha Hb ltac:(lia) A)|]. apply (DT b a Hb Ha ltac:(lia)). apply addable_sym. exact A. }
    split; [exact A|]. intros D. apply A. apply (difference n f c pc s K a b La Lb); [apply OT; assumption|exact D].
  - apply Nat2Z.inj. rewrite (members_total s T LT), (members_total s S LS). exact C1.
  - intros v Lv. apply (refls_members n f c pc s K T S v LT LS OT PO Lv). intros j. apply C2.
Qed.
Print Assumptions C169_long.
(** for roots of different signs the sum is computed from entries that do not exist *)
Theorem C169_mixed_refuted : exists n f c pc s S, built n f c pc s /\ length S = num_roots s /\
  orthogonal n f (root_at s) (coroot_at s) (members S) /\ long_orthogonalize s S = Fail Range.
Proof.
  exists 3%nat, (ent 3 (mdata b3)), b3, true, B, (the_set 18 [6; 15]%nat). split; [exact built_B|]. split; [reflexivity|]. split; [|vm_compute; reflexivity].
  replace (members (the_set 18 [6; 15]%nat)) with [6; 15]%nat by (vm_compute; reflexivity). split; [repeat constructor; cbn; intuition lia|].
  intros a b [<-|[<-|[]]] [<-|[<-|[]]] Nab; try congruence; vm_compute; reflexivity.
Qed.
Print Assumptions C169_mixed_refuted.
(** in B3, with short roots e3, e2, e1 numbered 11, 15, 17, the first two are replaced by -e2-e3 and e3-e2 *)
Example C169_ex : built 3 (ent 3 (mdata b3)) b3 true B /\ length (the_set 18 [11; 15; 17]%nat) = num_roots B /\
  (forall a, In a (members (the_set 18 [11; 15; 17]%nat)) -> (num_pos B <= a)%nat) /\
  orthogonal 3 (ent 3 (mdata b3)) (root_at B) (coroot_at B) (members (the_set 18 [11; 15; 17]%nat)) /\
  (exists T, long_orthogonalize B (the_set 18 [11; 15; 17]%nat) = Ok T /\ members T = [4; 7; 17]%nat) /\
  map (root_at B) [11; 15; 17; 4; 7]%nat = [[0;0;1]; [0;1;1]; [1;1;1]; [0;-1;-2]; [0;-1;0]].
Proof.
  split; [exact built_B|]. split; [reflexivity|]. replace (members (the_set 18 [11; 15; 17]%nat)) with [11; 15; 17]%nat by (vm_compute; reflexivity). split.
  - intros a [<-|[<-|[<-|[]]]]; vm_compute; lia.
  - split; [split; [repeat constructor; cbn; intuition lia|]; intros a b [<-|[<-|[<-|[]]]] [<-|[<-|[<-|[]]]] Nab; try congruence; vm_compute; reflexivity|].
    split; [exists (the_set 18 [4; 7; 17]%nat); split; vm_compute; reflexivity|vm_compute; reflexivity].
Qed.

(** * C170: max_orth *)
(** the roots are selected one after the other, each time the first positive one that is orthogonal to the previous ones
    and noncompact after the Cayley transforms through them; at the end there is none left *)
Theorem C170_selection (n : nat) (f : nat -> nat -> Z) (c : matrix Z) (pc : bool) (s : rootsys) (N S : bset) : built n f c pc s ->
  length N = num_roots s -> length S = num_roots s -> (forall x, bmem N x = true -> bmem S x = true) ->
  exists l T, max_orth s N S = Ok T /\ length T = num_roots s /\
    selection n f (root_at s) (coroot_at s) (fun x => bmem N x = true) (fun x => bmem S x = true /\ (num_pos s <= x)%nat) l /\
    (forall x, ~ candidate n f (root_at s) (coroot_at s) (fun x => bmem N x = true) (fun x => bmem S x = true /\ (num_pos s <= x)%nat) l x) /\
    strongly_orthogonal n f (root_at s) (coroot_at s) (members T) /\ length (members T) = length l /\
    forall v, length v = n -> reflections n f (root_at s) (coroot_at s) (members T) v = reflections n f (root_at s) (coroot_at s) l v.
Proof.
  intros K LN LS NS. destruct (select_ok n f c pc s K N S LN LS NS) as (l & r & E & Hl & NC & Lr & Br).
  pose proof (sel_lt n f s N S LS l Hl) as B. destruct (sel_orth n f c pc s K N S LN LS l Hl) as [ND O].
  assert (PO : pairwise n f s r) by (intros x y Hx Hy; apply O; apply Br; assumption).
  destruct (C169_long n f c pc s r K Lr) as (T & ET & LT & ST & CT & RT).
  { intros a Ha. apply (in_members s r a Lr) in Ha. apply Br in Ha. apply (B a Ha). }
  { apply (members_orth n f s r Lr PO). }
  exists l, T. split; [unfold max_orth; rewrite E; exact ET|]. split; [exact LT|]. split; [exact Hl|]. split; [exact NC|]. split; [exact ST|]. 
  assert (tot : forall t, lsum t l = total (num_roots s) (bmem r) t) by (intros t; apply lsum_zsum; [exact ND|intros a Ha; apply (B a Ha)|intros a _; apply Br]).
  split.
  - rewrite CT. apply Nat2Z.inj. rewrite (members_total s r Lr), <- tot, length_sum. reflexivity.
  - intros v Lv. rewrite (RT v Lv). destruct (refls_ok n f c pc s K l v Lv ND (fun a Ha => proj1 (B a Ha)) O) as (Q1 & _ & Q2).
    destruct (members_orth n f s r Lr PO) as [ND' O']. destruct (refls_ok n f c pc s K (members r) v Lv ND') as (Q3 & _ & Q4); [intros a Ha; apply (in_members s r a Lr) in Ha; apply (mem_lt s r a Lr Ha)|exact O'|].
    apply RootMath.vec_ext; [congruence|]. intros j _. rewrite Q2, Q4, tot. f_equal. unfold lsum. rewrite <- (total_list (num_roots s)). unfold members. rewrite Lr. reflexivity.
Qed.
Print Assumptions C170_selection.
(** when the noncompact roots are given by a grading of a closed subsystem, the result is a maximal strongly orthogonal set
    of noncompact roots of the subsystem *)
Theorem C170_noncompact (n : nat) (f : nat -> nat -> Z) (c : matrix Z) (pc : bool) (s : rootsys) (N S : bset) : built n f c pc s ->
  length N = num_roots s -> length S = num_roots s -> (forall x, bmem N x = true -> bmem S x = true) ->
  grading n (root_at s) (num_roots s) (fun x => bmem N x = true) (fun x => bmem S x = true) ->
  exists T, max_orth s N S = Ok T /\ strongly_orthogonal n f (root_at s) (coroot_at s) (members T) /\
    (forall x, In x (members T) -> bmem S x = true /\ bmem N x = true) /\
    forall b, (b < num_roots s)%nat -> bmem N b = true -> ~ strongly_orthogonal n f (root_at s) (coroot_at s) (b :: members T).
Proof.
  intros K LN LS NS [G1 G2].
  assert (G : graded n s N S).
  { split.
    - intros a Ha Sa. destruct (b_mn n f c pc s K a Ha) as (M1 & M2 & _). destruct (G1 a _ Ha M1 Sa M2) as [Q1 Q2]. split; [exact Q1|]. apply eq_true_iff_eq. exact Q2.
    - intros a b g Ha Hb Hg Sa Sb E. destruct (G2 a b g Ha Hb Hg Sa Sb E) as [Q1 Q2]. split; [exact Q1|]. apply eq_true_iff_eq. rewrite Q2. destruct (bmem N a), (bmem N b); cbn; intuition congruence. }
  destruct (select_ok n f c pc s K N S LN LS NS) as (l & r & E & Hl & NC & Lr & Br).
  pose proof (sel_lt n f s N S LS l Hl) as B. destruct (sel_orth n f c pc s K N S LN LS l Hl) as [ND O].
  assert (PO : pairwise n f s r) by (intros x y Hx Hy; apply O; apply Br; assumption).
  assert (Pp : forall x, bmem r x = true -> (num_pos s <= x)%nat) by (intros x Hx; apply (B x); apply Br; exact Hx).
  destruct (long_run n f c pc s K r Lr Pp PO N S) as (T & ET & IT).
  destruct (C169_long n f c pc s r K Lr) as (T' & ET' & _ & ST & _).
  { intros a Ha. apply (in_members s r a Lr) in Ha. apply Pp. exact Ha. }
  { apply (members_orth n f s r Lr PO). }
  rewrite ET in ET'. injection ET' as <-. pose proof (proj1 IT) as LT. pose proof IT as (_ & OT & _ & _ & _ & _ & _ & _ & AT).
  pose proof (AT (g_alternating n f c pc s K N S LN LS G l r Hl Lr Br)) as A.
  exists T. split; [unfold max_orth; rewrite E; exact ET|]. split; [exact ST|]. split.
  - intros x Hx. apply (in_members s T x LT) in Hx. destruct (A x Hx) as (A1 & A2 & A3). split; [exact A1|]. destruct (bmem r x) eqn:Q; [apply A2; [reflexivity|apply (mem_lt s T x LT Hx)]|apply A3; reflexivity].
  - intros b Hb Nb [[NDb Ob] Sb]. apply NoDup_cons_iff in NDb. destruct NDb as [Nin _].
    assert (Q : forall x, bmem T x = true -> value n f (root_at s b) (coroot_at s x) = 0 /\ ~ addable n f (root_at s) b x /\ ~ addable n f (root_at s) x (minus_nr (num_pos s) b) /\ (x < num_roots s)%nat).
    { intros x Hx. pose proof (mem_lt s T x LT Hx) as Lx. apply (in_members s T x LT) in Hx. assert (Nbx : b <> x) by (intros ->; exact (Nin Hx)). split; [apply Ob; [left; reflexivity|right; exact Hx|exact Nbx]|].
      split; [apply Sb; [left; reflexivity|right; exact Hx|exact Nbx]|]. split; [|exact Lx]. destruct (Sb x b (or_intror Hx) (or_introl eq_refl) (fun E0 => Nbx (eq_sym E0))) as [_ D]. intros A0. apply D. unfold addable in A0.
      destruct (b_mn n f c pc s K b Hb) as (M1 & M2 & _). destruct (b_len n f c pc s K b Hb) as [Lb _], (b_len n f c pc s K x Lx) as [Lxx _].
      replace (away n (root_at s x) 1 (root_at s b)) with (plus n (root_at s x) (root_at s (minus_nr (num_pos s) b))); [exact A0|].
      apply RootMath.vec_ext; [rewrite plus_len, RootForm.away_length; reflexivity|]. intros k _. rewrite co_plus by (rewrite ?M2, ?RootMath.opp_length; assumption). rewrite RootForm.co_away by assumption. rewrite M2, RootMath.co_opp. lia. }
    destruct (le_lt_dec (num_pos s) b) as [Pb|Pb].
    + rewrite (g_maximal n f c pc s K N S LN LS l r T b Hl NC Lr Br IT (Logic.conj Pb Hb) (NS b Nb)) in Nb; [discriminate|]. intros x Hx. split; apply (Q x Hx).
    + destruct (b_mn n f c pc s K b Hb) as (M1 & M2 & _). destruct (proj1 G b Hb (NS b Nb)) as [Sm Nm].
      rewrite (g_maximal n f c pc s K N S LN LS l r T (minus_nr (num_pos s) b) Hl NC Lr Br IT) in Nm; [congruence|unfold minus_nr, num_roots in *; lia|exact Sm|].
      intros x Hx. destruct (Q x Hx) as (Q1 & _ & Q2 & _). split; [rewrite M2, RootForm.value_opp_l; lia|]. intros A0. apply Q2. apply addable_sym. exact A0.
Qed.
Print Assumptions C170_noncompact.
(** B3 with all simple roots noncompact *)
Definition odd_roots : bset := map (fun a => Z.odd (height (root_at B a))) (seq 0 18).
Example C170_ex : built 3 (ent 3 (mdata b3)) b3 true B /\ length odd_roots = num_roots B /\
  grading 3 (root_at B) (num_roots B) (fun x => bmem odd_roots x = true) (fun x => bmem (repeat true 18) x = true) /\
  exists T, max_orth B odd_roots (repeat true 18) = Ok T /\ members T = [9; 11; 16]%nat.
Proof.
  split; [exact built_B|]. split; [reflexivity|]. split.
  - assert (Sx : forall x, (x < 18)%nat -> bmem (repeat true 18) x = true) by (intros x Hx; do 18 (destruct x as [|x]; [reflexivity|]); lia).
    split.
    + assert (Q : forallb (fun a => forallb (fun b => if list_eq_dec Z.eq_dec (root_at B b) (opp (root_at B a)) then Bool.eqb (bmem odd_roots b) (bmem odd_roots a) else true) (seq 0 18)) (seq 0 18) = true) by (vm_compute; reflexivity).
      intros a b Ha Hb _ E. split; [apply Sx; exact Hb|]. rewrite forallb_forall in Q. specialize (Q a (proj2 (in_seq 18 0 a) (Logic.conj (Nat.le_0_l _) Ha))). cbv beta in Q. rewrite forallb_forall in Q.
      specialize (Q b (proj2 (in_seq 18 0 b) (Logic.conj (Nat.le_0_l _) Hb))). cbv beta in Q. destruct (list_eq_dec Z.eq_dec (root_at B b) (opp (root_at B a))) as [_|C]; [|contradiction].
      apply Bool.eqb_prop in Q. rewrite Q. tauto.
    + assert (Q : forallb (fun a => forallb (fun b => forallb (fun g => if list_eq_dec Z.eq_dec (root_at B g) (plus 3 (root_at B a) (root_at B b)) then Bool.eqb (bmem odd_roots g) (xorb (bmem odd_roots a) (bmem odd_roots b)) else true) (seq 0 18)) (seq 0 18)) (seq 0 18) = true) by (vm_compute; reflexivity).
      intros a b g Ha Hb Hg _ _ E. split; [apply Sx; exact Hg|]. rewrite forallb_forall in Q. specialize (Q a (proj2 (in_seq 18 0 a) (Logic.conj (Nat.le_0_l _) Ha))). cbv beta in Q. rewrite forallb_forall in Q.
      specialize (Q b (proj2 (in_seq 18 0 b) (Logic.conj (Nat.le_0_l _) Hb))). cbv beta in Q. rewrite forallb_forall in Q. specialize (Q g (proj2 (in_seq 18 0 g) (Logic.conj (Nat.le_0_l _) Hg))). cbv beta in Q.
      destruct (list_eq_dec Z.eq_dec (root_at B g) (plus 3 (root_at B a) (root_at B b))) as [_|C]; [|contradiction].
      apply Bool.eqb_prop in Q. rewrite Q. destruct (bmem odd_roots a), (bmem odd_roots b); cbn; intuition congruence.
  - exists (the_set 18 [9; 11; 16]%nat). split; vm_compute; reflexivity.
Qed.
