(** A root system is determined by its Cartan matrix and the choice of order. *)

From Coq Require Import List Arith ZArith Bool Lia Sorted.
From Verif Require Import VecModel VecProofs RunModel RunProofs MatModel MatSpec MatRing MatLin MatProofs MatOps SizeModel BitsetSpec BitsetProofs DynBits DynkinModel LieTypeSpec RatVecMore RootModel RootSpec RootMath RootForm RootFin RootBase RootGen RootCo RootPerm RootMake RootSys RootAcc RootLook RootOrder RootBasis.
Import ListNotations.
Local Open Scope Z_scope.

Lemma strict_ext {A} (R : A -> A -> Prop) (irr : forall x, ~ R x x) (tr : forall x y z, R x y -> R y z -> R x z) :
  forall l l', StronglySorted R l -> StronglySorted R l' -> (forall x, In x l <-> In x l') -> l = l'.
Proof.
  induction l as [|a t IH]; intros [|b u] H H' E.
  - reflexivity.
  - exfalso. apply (proj2 (E b)). left. reflexivity.
  - exfalso. apply (proj1 (E a)). left. reflexivity.
  - inversion H as [|? ? H1 F1]; subst. inversion H' as [|? ? H2 F2]; subst. rewrite Forall_forall in F1, F2.
    assert (a = b). { destruct (proj1 (E a) (or_introl eq_refl)) as [Q|Q]; [congruence|]. destruct (proj2 (E b) (or_introl eq_refl)) as [Q'|Q']; [congruence|]. exfalso. apply (irr a). apply (tr a b a); [apply F1; exact Q'|apply F2; exact Q]. }
    subst b. f_equal. apply IH; [exact H1|exact H2|]. intros x. split; intros I.
    + destruct (proj1 (E x) (or_intror I)) as [<-|Q]; [|exact Q]. exfalso. apply (irr a). apply F1. exact I.
    + destruct (proj2 (E x) (or_intror I)) as [<-|Q]; [|exact Q]. exfalso. apply (irr a). apply F2. exact I.
Qed.
Lemma mem_ext32 x y : is32 x -> is32 y -> (forall i, mem x i = true <-> mem y i = true) -> x = y.
Proof.
  intros Hx Hy E. apply Z.bits_inj'. intros k Hk. specialize (E (Z.to_nat k)). unfold mem in E. rewrite Z2Nat.id in E by exact Hk.
  destruct (Z.testbit x k), (Z.testbit y k); try reflexivity; [symmetry; tauto|tauto].
Qed.
Lemma get_ext {A} (l l' : list A) : length l = length l' -> (forall k x x', get l k = Some x -> get l' k = Some x' -> x = x') -> l = l'.
Proof.
  revert l'. induction l as [|a t IH]; intros [|b u] L H; cbn in L; try lia; [reflexivity|]. f_equal; [exact (H 0%nat a b eq_refl eq_refl)|]. apply IH; [lia|]. intros k x x' G G'. exact (H (S k) x x' G G').
Qed.

Section Uniq.
Variables (n : nat) (C : nat -> nat -> Z) (s s' : rootsys).
Hypothesis n1 : (1 <= n <= 32)%nat.
Hypothesis gd : good n C.
Hypothesis gd' : good n (flip C).
Lemma rc_co_unique v v' w : root_coroot n C v w -> root_coroot n C v' w -> v = v'.
Proof. intros H H'. apply (rc_unique n (flip C) gd' w); apply rc_flip; assumption. Qed.
Lemma in_order pc t : system n C t -> forall v, In v (map (order pc) (s_ri t)) <-> up n (if pc then flip C else C) v.
Proof.
  intros Y v. destruct (y_table _ _ _ Y) as [link T]. rewrite in_map_iff. split.
  - intros (x & <- & I). apply In_get in I. destruct I as [k G]. destruct (t_rc _ _ _ _ T k x G) as [R U]. destruct pc; cbn [order]; [exact (rc_up_co n C gd _ _ R U)|exact U].
  - destruct pc; cbn [order]; intros U.
    + destruct (up_root n (flip C) v U) as [w R]. apply rc_flip in R. rewrite flip_flip in R. assert (R' : root_coroot n C w v) by exact R. pose proof (rc_co_up n C gd _ _ R' U) as U'. destruct (t_all _ _ _ _ T w U') as (k & x & G & E).
      exists x. split; [|apply (get_In _ _ _ G)]. destruct (t_rc _ _ _ _ T k x G) as [Rx _]. rewrite E in Rx. exact (rc_unique n C gd w _ _ Rx R').
    + destruct (t_all _ _ _ _ T v U) as (k & x & G & E). exists x. split; [exact E|apply (get_In _ _ _ G)].
Qed.
Hypothesis Y : system n C s.
Hypothesis Y' : system n C s'.
Hypothesis pf : s_prefer s = s_prefer s'.
Hypothesis So : StronglySorted before (map (order (s_prefer s)) (s_ri s)).
Hypothesis So' : StronglySorted before (map (order (s_prefer s')) (s_ri s')).
Lemma orders_eq : map (order (s_prefer s)) (s_ri s) = map (order (s_prefer s)) (s_ri s').
Proof. apply (strict_ext before before_irrefl before_trans); [exact So|rewrite pf; exact So'|]. intros v. rewrite (in_order _ s Y), (in_order _ s' Y'). reflexivity. Qed.
Lemma infos_len : length (s_ri s) = length (s_ri s'). Proof. pose proof (f_equal (@length _) orders_eq) as E. rewrite !map_length in E. exact E. Qed.
Lemma infos_same k x x' : get (s_ri s) k = Some x -> get (s_ri s') k = Some x' -> r_root x = r_root x' /\ r_coroot x = r_coroot x'.
Proof.
  intros G G'. destruct (y_table _ _ _ Y) as [link T]. destruct (y_table _ _ _ Y') as [link' T']. destruct (t_rc _ _ _ _ T k x G) as [R _]. destruct (t_rc _ _ _ _ T' k x' G') as [R' _].
  pose proof (f_equal (fun l => get l k) orders_eq) as E. cbn beta in E. rewrite !get_map, G, G' in E. cbn [option_map] in E. unfold order in E. destruct (s_prefer s).
  - assert (Q : r_coroot x = r_coroot x') by congruence. split; [|exact Q]. rewrite <- Q in R'. exact (rc_co_unique _ _ _ R R').
  - assert (Q : r_root x = r_root x') by congruence. split; [exact Q|]. rewrite <- Q in R'. exact (rc_unique n C gd _ _ _ R R').
Qed.
Lemma nv_same proj a : (proj = r_root \/ proj = r_coroot) -> nv proj (s_ri s) a = nv proj (s_ri s') a.
Proof.
  intros Hp. unfold nv. rewrite infos_len. destruct (get (s_ri s) (abs_nr (length (s_ri s')) a)) as [x|] eqn:G; destruct (get (s_ri s') (abs_nr (length (s_ri s')) a)) as [x'|] eqn:G'.
  - destruct (infos_same _ x x' G G') as [E1 E2]. destruct Hp as [->| ->]; rewrite ?E1, ?E2; reflexivity.
  - apply get_lt in G. destruct (get_some (s_ri s') (abs_nr (length (s_ri s')) a)) as [z Q]; [pose proof infos_len; lia|congruence].
  - apply get_lt in G'. destruct (get_some (s_ri s) (abs_nr (length (s_ri s')) a)) as [z Q]; [pose proof infos_len; lia|congruence].
  - reflexivity.
Qed.
Lemma infos_eq : s_ri s = s_ri s'.
Proof.
  apply get_ext; [exact infos_len|]. intros k x x' G G'. destruct (infos_same k x x' G G') as [E1 E2].
  destruct (y_table _ _ _ Y) as [link T]. destruct (y_table _ _ _ Y') as [link' T']. destruct (t_bits _ _ _ _ T k x G) as (B1 & B2 & B3). destruct (t_bits _ _ _ _ T' k x' G') as (B1' & B2' & B3').
  assert (E3 : r_desc x = r_desc x'). { apply mem_ext32; [exact B1|exact B1'|]. intros i. rewrite (proj1 (B3 i)), (proj1 (B3' i)), E1. reflexivity. }
  assert (E4 : r_asc x = r_asc x'). { apply mem_ext32; [exact B2|exact B2'|]. intros i. rewrite (proj2 (B3 i)), (proj2 (B3' i)), E1. reflexivity. }
  assert (E5 : r_perm x = r_perm x').
  { destruct (y_perm _ _ _ Y k x G) as [L A]. destruct (y_perm _ _ _ Y' k x' G') as [L' A']. apply get_ext; [rewrite L, L', infos_len; reflexivity|]. intros b c c' H H'.
    assert (Hb : (b < 2 * length (s_ri s))%nat) by (apply get_lt in H; lia). destruct (A b Hb) as (d & D1 & D2 & D3). destruct (A' b ltac:(rewrite <- infos_len; exact Hb)) as (d' & D1' & D2' & D3').
    assert (c = d) by congruence. assert (c' = d') by congruence. subst c c'. apply (rt_inj n C s n1 Y); [exact D2|unfold num_pos; rewrite infos_len; exact D2'|]. unfold rt. rewrite D3, (nv_same r_root d'), D3', E1, E2, (nv_same r_root b) by (left; reflexivity). reflexivity. }
  destruct x, x'. cbn in *. congruence.
Qed.
Lemma bots_eq (D : nat -> nat -> Z) ri (l l' : list bset) : length l = (2 * length ri)%nat -> length l' = (2 * length ri)%nat ->
  (forall a, (a < 2 * length ri)%nat -> exists B, get l a = Some B /\ bot_ok n D ri a B) -> (forall a, (a < 2 * length ri)%nat -> exists B, get l' a = Some B /\ bot_ok n D ri a B) -> l = l'.
Proof.
  intros L L' A A'. apply get_ext; [lia|]. intros k B B' G G'. assert (Hk : (k < 2 * length ri)%nat) by (apply get_lt in G; lia). destruct (A k Hk) as (B0 & G0 & L0 & M0). destruct (A' k Hk) as (B0' & G0' & L0' & M0').
  assert (B = B0) by congruence. assert (B' = B0') by congruence. subst B0 B0'. apply get_ext; [lia|]. intros b y y' H H'. assert (Hb : (b < 2 * length ri)%nat) by (apply get_lt in H; lia).
  pose proof (M0 b Hb) as Q. pose proof (M0' b Hb) as Q'. rewrite bmem_get in H by lia. rewrite bmem_get in H' by lia. assert (Ey : bmem B b = y) by congruence. assert (Ey' : bmem B' b = y') by congruence. rewrite Ey in Q. rewrite Ey' in Q'.
  destruct y, y'; try reflexivity; [symmetry; apply Q'; apply Q; reflexivity|apply Q; apply Q'; reflexivity].
Qed.
Lemma system_unique : s = s'.
Proof.
  pose proof infos_eq as E. destruct (y_bots _ _ _ Y) as [L1 L2]. destruct (y_bots _ _ _ Y') as [L1' L2'].
  assert (Eb : s_bot s = s_bot s'). { apply (bots_eq C (s_ri s)); [exact L1|rewrite E; exact L1'|apply (y_bot _ _ _ Y)|rewrite E; apply (y_bot _ _ _ Y')]. }
  assert (Ec : s_cobot s = s_cobot s').
  { apply (bots_eq (flip C) (map swap_info (s_ri s))); rewrite ?map_length; [exact L2|rewrite E; exact L2'|apply (y_cobot _ _ _ Y)|rewrite E; apply (y_cobot _ _ _ Y')]. }
  pose proof (y_rank _ _ _ Y). pose proof (y_rank _ _ _ Y'). pose proof (is_mx_eq _ _ _ _ _ (y_C _ _ _ Y) (y_C _ _ _ Y')). destruct s, s'. cbn in *. congruence.
Qed.
End Uniq.

Lemma empty_unique C s s' : system 0 C s -> system 0 C s' -> s_prefer s = s_prefer s' -> s = s'.
Proof.
  intros Y Y' P. pose proof (system_0 C s Y) as E. pose proof (system_0 C s' Y') as E'. destruct (y_bots _ _ _ Y) as [L1 L2]. destruct (y_bots _ _ _ Y') as [L1' L2']. rewrite E in L1, L2. rewrite E' in L1', L2'. cbn in L1, L2, L1', L2'.
  pose proof (y_rank _ _ _ Y). pose proof (y_rank _ _ _ Y'). pose proof (is_mx_eq _ _ _ _ _ (y_C _ _ _ Y) (y_C _ _ _ Y')). destruct s as [r p c ri b cb], s' as [r' p' c' ri' b' cb']. cbn in *. destruct b, cb, b', cb'; try discriminate. congruence.
Qed.
(** the dual of a root system is the root system of the transposed matrix *)
Lemma dual_is_transposed n f c ct pc s : (n <= 32)%nat -> finite_type n f -> is_mx c n n f -> is_mx ct n n (flip f) -> root_system c pc = Ok s -> dual_system s = root_system ct (negb pc).
Proof.
  intros n1 ft H Ht E. pose proof (finite_good n f ft) as gd. pose proof (finite_good n _ (finite_flip n f ft)) as gd'.
  destruct (root_system_ok n f c pc n1 ft H) as (s0 & E0 & Y & P & So). assert (s0 = s) by congruence. subst s0.
  destruct (dual_system_ok n f s n1 ft Y) as (s1 & E1 & Y1 & P1 & R1 & R2 & _). destruct (root_system_ok n (flip f) ct (negb pc) n1 (finite_flip n f ft) Ht) as (s2 & E2 & Y2 & P2 & So2).
  rewrite E1, E2. f_equal. destruct n as [|m]; [apply (empty_unique (flip f)); [exact Y1|exact Y2|congruence]|].
  apply (system_unique (S m) (flip f) s1 s2); [lia|exact gd'|exact gd|exact Y1|exact Y2|congruence| |rewrite P2; exact So2].
  rewrite P1, P. rewrite P in *. destruct pc; cbn [negb order] in *; [rewrite R1; exact So|rewrite R2; exact So].
Qed.
