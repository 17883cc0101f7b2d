(** The proved facts in terms of the accessors. *)

From Coq Require Import List Arith ZArith Bool Lia Sorted.
From Verif Require Import VecModel VecProofs RunModel RunProofs MatModel MatSpec MatRing MatLin MatProofs MatOps SizeModel BitsetSpec DynBits RedEchelon RedDiag DynkinModel LieTypeSpec RatVecMore RootModel RootSpec RootMath RootForm RootFin RootBase RootGen RootCo RootPerm RootMake RootSys RootAcc RootExt RootLook RootOrder RootBasis RootUniq.
Import ListNotations.
Local Open Scope Z_scope.

(** the vectors of root number [a] and of its coroot *)
Definition root_at (s : rootsys) (a : nat) : list Z := match root_any s a with Ok v => v | Fail _ => [] end.
Definition coroot_at (s : rootsys) (a : nat) : list Z := match coroot_any s a with Ok v => v | Fail _ => [] end.

Lemma lex_spec v : forall w, length v = length w -> (lex_lt v w = true <-> exists k, nth k v 0 < nth k w 0 /\ forall j, (j < k)%nat -> nth j v 0 = nth j w 0).
Proof.
  induction v as [|x v IH]; intros [|y w] L; cbn in L; try lia.
  - split; [discriminate|]. intros (k & K & _). destruct k; cbn in K; lia.
  - cbn [lex_lt]. destruct (Z.eqb_spec x y) as [->|N].
    + rewrite (IH w ltac:(lia)). split.
      * intros (k & K & A). exists (S k). split; [exact K|]. intros [|j] Hj; [reflexivity|]. cbn. apply A. lia.
      * intros ([|k] & K & A); [cbn in K; lia|]. exists k. split; [exact K|]. intros j Hj. apply (A (S j)). lia.
    + rewrite Z.ltb_lt. split.
      * intros H. exists 0%nat. split; [exact H|]. intros j Hj. lia.
      * intros ([|k] & K & A); [exact K|]. pose proof (A 0%nat ltac:(lia)) as Q. cbn in Q. lia.
Qed.
Lemma root_lt_spec v w : length v = length w -> (root_lt v w = true <-> exists k, co v k < co w k /\ forall j, (k < j)%nat -> co v j = co w j).
Proof.
  intros L. unfold root_lt. rewrite lex_spec by (rewrite !rev_length; exact L). unfold co. split.
  - intros (k & K & A). assert (Hk : (k < length v)%nat). { destruct (le_lt_dec (length v) k) as [Q|Q]; [|exact Q]. rewrite !nth_overflow in K by (rewrite rev_length; lia). lia. }
    exists (length v - S k)%nat. split; [rewrite !rev_nth in K by lia; rewrite <- L in K; exact K|]. intros j Hj. destruct (le_lt_dec (length v) j) as [Q|Q]; [rewrite !nth_overflow by lia; reflexivity|].
    pose proof (A (length v - S j)%nat ltac:(lia)) as E. rewrite !rev_nth in E by lia. replace (length v - S (length v - S j))%nat with j in E by lia. replace (length w - S (length v - S j))%nat with j in E by lia. exact E.
  - intros (k & K & A). assert (Hk : (k < length v)%nat). { destruct (le_lt_dec (length v) k) as [Q|Q]; [|exact Q]. rewrite !nth_overflow in K by lia. lia. }
    exists (length v - S k)%nat. split.
    + rewrite !rev_nth by lia. replace (length v - S (length v - S k))%nat with k by lia. replace (length w - S (length v - S k))%nat with k by lia. exact K.
    + intros j Hj. rewrite !rev_nth by lia. rewrite <- L. apply A. lia.
Qed.
Lemma before_earlier u v : length u = length v -> (before u v <-> earlier u v).
Proof. intros L. unfold before, earlier, rlt. rewrite (root_lt_spec u v L). reflexivity. Qed.

Section Top.
Variables (n : nat) (f : nat -> nat -> Z) (c : matrix Z) (pc : bool) (s : rootsys).
Hypothesis n32 : (n <= 32)%nat.
Hypothesis ft : finite_type n f.
Hypothesis mc : is_mx c n n f.
Hypothesis made : root_system c pc = Ok s.

Lemma top_system : system n f s /\ s_prefer s = pc /\ StronglySorted before (map (order (s_prefer s)) (s_ri s)).
Proof.
  destruct (root_system_ok n f c pc n32 ft mc) as (s0 & E & Y & P & So). assert (s0 = s) by congruence. subst s0. split; [exact Y|]. split; [exact P|]. rewrite P. exact So.
Qed.
Lemma top_empty : n = 0%nat -> exists M, s = mk_sys 0 pc M [] [] [].
Proof.
  intros E. unfold root_system in made. cbv zeta in made. rewrite (is_mx_rows _ _ _ _ mc), E in made. cbn [Nat.eqb] in made. eexists. symmetry. injection made as H. exact H.
Qed.
Lemma top_some : (0 < num_roots s)%nat -> (1 <= n <= 32)%nat.
Proof. intros H. destruct (Nat.eq_dec n 0) as [E|]; [|lia]. destruct (top_empty E) as [M ->]. cbn in H. lia. Qed.
Lemma top_good : good n f /\ good n (flip f). Proof. split; [apply finite_good; exact ft|apply finite_good; apply finite_flip; exact ft]. Qed.
Lemma at_rt a : (a < num_roots s)%nat -> root_any s a = Ok (rt s a) /\ root_at s a = rt s a.
Proof.
  intros H. pose proof (top_some ltac:(lia)) as n1. destruct top_good as [gd gd']. pose proof (root_any_ok n f s n1 gd gd' (proj1 top_system) a H) as E. split; [exact E|]. unfold root_at. rewrite E. reflexivity.
Qed.
Lemma at_crt a : (a < num_roots s)%nat -> coroot_any s a = Ok (crt s a) /\ coroot_at s a = crt s a.
Proof.
  intros H. pose proof (top_some ltac:(lia)) as n1. destruct top_good as [gd gd']. pose proof (coroot_any_ok n f s n1 gd gd' (proj1 top_system) a H) as E. split; [exact E|]. unfold coroot_at. rewrite E. reflexivity.
Qed.
Lemma top_numbers a : (a < num_roots s)%nat -> root_any s a = Ok (root_at s a) /\ coroot_any s a = Ok (coroot_at s a) /\ root_coroot n f (root_at s a) (coroot_at s a).
Proof.
  intros H. destruct (at_rt a H) as [E1 E2]. destruct (at_crt a H) as [E3 E4]. rewrite E2, E4. split; [exact E1|]. split; [exact E3|]. apply (rt_rc n f s (proj1 top_good) (proj1 top_system)). exact H.
Qed.
Lemma no_roots_0 v w : root_coroot 0 f v w -> False.
Proof. intros R. induction R; lia. Qed.
Lemma top_every v w : root_coroot n f v w -> exists a, (a < num_roots s)%nat /\ root_at s a = v /\ coroot_at s a = w.
Proof.
  intros R. destruct (Nat.eq_dec n 0) as [E|N]; [rewrite E in R; destruct (no_roots_0 v w R)|].
  destruct (rt_all2 n f s ltac:(lia) (proj1 top_good) (proj1 top_system) v w R) as (a & H & E1 & E2). exists a. split; [exact H|]. rewrite (proj2 (at_rt a H)), (proj2 (at_crt a H)). split; assumption.
Qed.
Lemma top_inj a b : (a < num_roots s)%nat -> (b < num_roots s)%nat -> root_at s a = root_at s b \/ coroot_at s a = coroot_at s b -> a = b.
Proof.
  intros Ha Hb E. pose proof (top_some ltac:(lia)) as n1. apply (rt_inj n f s n1 (proj1 top_system) a b Ha Hb). rewrite (proj2 (at_rt a Ha)), (proj2 (at_rt b Hb)), (proj2 (at_crt a Ha)), (proj2 (at_crt b Hb)) in E. destruct E as [E|E]; [exact E|].
  pose proof (rt_rc n f s (proj1 top_good) (proj1 top_system) a Ha) as Ra. pose proof (rt_rc n f s (proj1 top_good) (proj1 top_system) b Hb) as Rb. rewrite E in Ra. exact (rc_co_unique n f (proj2 top_good) _ _ _ Ra Rb).
Qed.
Lemma top_sign a : (a < num_roots s)%nat -> (num_pos s <= a <-> nonneg (root_at s a))%nat.
Proof. intros H. rewrite (proj2 (at_rt a H)). symmetry. apply (rt_sign n f s (top_some ltac:(lia)) (proj1 top_system) a H). Qed.
Lemma top_simple i : (i < n)%nat -> (num_pos s + i < num_roots s)%nat /\ root_at s (num_pos s + i) = basis n i /\ coroot_at s (num_pos s + i) = basis n i.
Proof.
  intros H. destruct (rt_simple n f s ltac:(lia) (proj1 top_good) (proj1 top_system) i H) as (L & E1 & E2). unfold pos_nr in *. split; [exact L|]. rewrite (proj2 (at_rt _ L)), (proj2 (at_crt _ L)). split; assumption.
Qed.
Lemma top_minus a : (a < num_roots s)%nat -> (minus_nr (num_pos s) a < num_roots s)%nat /\ root_at s (minus_nr (num_pos s) a) = opp (root_at s a) /\ coroot_at s (minus_nr (num_pos s) a) = opp (coroot_at s a).
Proof.
  intros H. destruct (rt_minus n s (top_some ltac:(lia)) a H) as (L & E1 & E2). split; [exact L|]. rewrite (proj2 (at_rt _ L)), (proj2 (at_crt _ L)), (proj2 (at_rt _ H)), (proj2 (at_crt _ H)). split; assumption.
Qed.
Definition sorting (a : nat) : list Z := if pc then coroot_at s a else root_at s a.
Lemma sorting_ord a : (a < num_roots s)%nat -> sorting a = ord s a.
Proof. intros H. destruct top_system as (_ & P & So). unfold sorting. rewrite (ord_cases s So), P, (proj2 (at_rt a H)), (proj2 (at_crt a H)). reflexivity. Qed.
Lemma ord_length a : (a < num_roots s)%nat -> length (ord s a) = n.
Proof.
  intros H. destruct top_system as (Y & P & So). rewrite (ord_cases s So). destruct (s_prefer s); [apply (crt_length n f s (proj1 top_good) Y a H)|apply (rt_length n f s (proj1 top_good) Y a H)].
Qed.
Lemma top_order a b : (num_pos s <= a < num_roots s)%nat -> (num_pos s <= b < num_roots s)%nat -> ((a < b)%nat <-> earlier (sorting a) (sorting b)).
Proof.
  intros Ha Hb. destruct top_system as (Y & P & So). pose proof (top_some ltac:(lia)) as n1. rewrite !sorting_ord by lia. rewrite <- before_earlier by (rewrite !ord_length by lia; reflexivity).
  split; [|apply (ord_lt n s n1 So); assumption]. intros L. destruct (get_some (s_ri s) (a - num_pos s)) as [x Gx]; [unfold num_roots, num_pos in *; lia|]. destruct (get_some (s_ri s) (b - num_pos s)) as [y Gy]; [unfold num_roots, num_pos in *; lia|].
  assert (E : forall d z, (num_pos s <= d)%nat -> get (s_ri s) (d - num_pos s) = Some z -> ord s d = order (s_prefer s) z).
  { intros d z Hd G. unfold ord. rewrite <- (nv_pos (s_ri s) (order (s_prefer s)) _ z G). f_equal. unfold pos_nr, num_pos in *. lia. }
  rewrite (E a x ltac:(lia) Gx), (E b y ltac:(lia) Gy). apply (sorted_get before (map (order (s_prefer s)) (s_ri s)) So (a - num_pos s) (b - num_pos s)); [lia|rewrite get_map, Gx; reflexivity|rewrite get_map, Gy; reflexivity].
Qed.
Ltac start H := pose proof (top_some ltac:(unfold num_roots in *; lia)) as n1; destruct top_good as [gd gd']; destruct top_system as (Y & P & So).
Lemma top_reflected a b : (a < num_roots s)%nat -> (b < num_roots s)%nat -> exists d, reflected s a b = Ok d /\ (d < num_roots s)%nat /\
  root_at s d = reflect n f (root_at s a) (coroot_at s a) (root_at s b) /\ coroot_at s d = reflect n (flip f) (coroot_at s a) (root_at s a) (coroot_at s b).
Proof.
  intros Ha Hb. start Ha. destruct (reflected_ok n f s n1 gd Y a b Ha Hb) as (d & E & Hd & E1 & E2). exists d. split; [exact E|]. split; [exact Hd|].
  rewrite (proj2 (at_rt a Ha)), (proj2 (at_rt b Hb)), (proj2 (at_rt d Hd)), (proj2 (at_crt a Ha)), (proj2 (at_crt b Hb)), (proj2 (at_crt d Hd)). split; assumption.
Qed.
Lemma top_simple_reflected i b : (i < n)%nat -> (b < num_roots s)%nat -> exists d, simple_reflected s i b = Ok d /\ (d < num_roots s)%nat /\ root_at s d = sreflect n f i (root_at s b) /\ coroot_at s d = sreflect n (flip f) i (coroot_at s b).
Proof.
  intros Hi Hb. start Hb. destruct (simple_reflected_ok n f s n1 gd Y i b Hi Hb) as (d & E & Hd & E1 & E2). exists d. split; [exact E|]. split; [exact Hd|].
  rewrite (proj2 (at_rt b Hb)), (proj2 (at_rt d Hd)), (proj2 (at_crt b Hb)), (proj2 (at_crt d Hd)). split; assumption.
Qed.
Lemma top_orthogonal a b : (a < num_roots s)%nat -> (b < num_roots s)%nat -> exists t, is_orthogonal s a b = Ok t /\ (t = true <-> value n f (root_at s b) (coroot_at s a) = 0).
Proof. intros Ha Hb. start Ha. rewrite (proj2 (at_rt b Hb)), (proj2 (at_crt a Ha)). apply (orthogonal_ok n f s n1 gd Y a b Ha Hb). Qed.
Lemma top_bracket a b : (a < num_roots s)%nat -> (b < num_roots s)%nat -> bracket s a b = Ok (value n f (root_at s a) (coroot_at s b)).
Proof. intros Ha Hb. start Ha. rewrite (proj2 (at_rt a Ha)), (proj2 (at_crt b Hb)). apply (bracket_ok n f s n1 gd Y a b Ha Hb). Qed.
Lemma top_Cartan rb : Forall (fun a => (a < num_roots s)%nat) rb -> exists M, Cartan_of s rb = Ok M /\
  is_mx M (length rb) (length rb) (fun i j => value n f (root_at s (nth i rb 0%nat)) (coroot_at s (nth j rb 0%nat))).
Proof.
  intros F. destruct rb as [|r0 t0] eqn:Erb; [exists (mk_mat 0 0 []); split; [reflexivity|]; split; [reflexivity|]; split; [reflexivity|]; split; [reflexivity|]; intros i j Hi; cbn in Hi; lia|]. rewrite <- Erb in *. rewrite Forall_forall in F.
  assert (H0 : (r0 < num_roots s)%nat) by (apply F; rewrite Erb; left; reflexivity). start H0. destruct (Cartan_of_ok n f s n1 gd Y rb F) as (M & E & HM). exists M. split; [exact E|].
  apply (is_mx_ext _ _ _ _ _ HM). intros i j Hi Hj. rewrite (proj2 (at_rt _ (F _ (nth_In rb 0%nat Hi)))), (proj2 (at_crt _ (F _ (nth_In rb 0%nat Hj)))). reflexivity.
Qed.
Lemma top_permuted ww a : Forall (fun i => (i < n)%nat) ww -> (a < num_roots s)%nat ->
  (exists b, permuted_left s ww a = Ok b /\ (b < num_roots s)%nat /\ root_at s b = word_act n f ww (root_at s a)) /\
  (exists b, permuted_right s a ww = Ok b /\ (b < num_roots s)%nat /\ root_at s b = word_act n f (rev ww) (root_at s a)).
Proof.
  intros F Ha. start Ha. rewrite (proj2 (at_rt a Ha)). split.
  - destruct (permuted_left_ok n f s n1 gd Y ww a F Ha) as (b & E & Hb & Q). exists b. split; [exact E|]. split; [exact Hb|]. rewrite (proj2 (at_rt b Hb)). exact Q.
  - destruct (permuted_right_ok n f s n1 gd Y ww a F Ha) as (b & E & Hb & Q). exists b. split; [exact E|]. split; [exact Hb|]. rewrite (proj2 (at_rt b Hb)). exact Q.
Qed.
Lemma top_sum a b : (a < num_roots s)%nat -> (b < num_roots s)%nat ->
  (exists t, sum_is_root s a b = Ok t /\ (t = true <-> is_root n f (plus n (root_at s b) (root_at s a)))) /\
  (exists t, sum_is_coroot s a b = Ok t /\ (t = true <-> is_root n (flip f) (plus n (coroot_at s b) (coroot_at s a)))).
Proof.
  intros Ha Hb. start Ha. rewrite (proj2 (at_rt a Ha)), (proj2 (at_rt b Hb)), (proj2 (at_crt a Ha)), (proj2 (at_crt b Hb)). split; [apply (sum_ok n f s n1 gd Y a b Ha Hb)|apply (cosum_ok n f s n1 gd Y a b Ha Hb)].
Qed.
Lemma top_walls : exists B, alcove_walls s = Ok B /\ length B = num_roots s /\ forall a, (a < num_roots s)%nat ->
  (bmem B a = true <-> (num_pos s <= a < num_pos s + n)%nat \/ ((a < num_pos s)%nat /\ forall i, (i < n)%nat -> ~ is_root n (flip f) (away n (coroot_at s a) 1 (basis n i)))).
Proof.
  destruct (Nat.eq_dec n 0) as [E|N].
  - destruct (top_empty E) as [M ->]. exists []. split; [reflexivity|]. split; [reflexivity|]. intros a Ha. cbn in Ha. lia.
  - destruct top_good as [gd gd']; destruct top_system as (Y & P & So). destruct (walls_ok n f s ltac:(lia) gd Y) as (B & E & L & A). exists B. split; [exact E|]. split; [exact L|]. intros a Ha. rewrite (A a Ha), (proj2 (at_crt a Ha)). reflexivity.
Qed.
Lemma top_descents a : (a < num_roots s)%nat -> exists d e, descent_set s a = Ok d /\ ascent_set s a = Ok e /\ is32 d /\ is32 e /\
  (forall i, mem d i = true <-> (i < n)%nat /\ 0 < pairing n f (root_at s a) i) /\ (forall i, mem e i = true <-> (i < n)%nat /\ pairing n f (root_at s a) i < 0).
Proof. intros Ha. start Ha. rewrite (proj2 (at_rt a Ha)). apply (descent_set_ok n f s n1 Y a Ha). Qed.
Lemma top_descent i a : (i < n)%nat -> (a < num_roots s)%nat -> exists t u, is_descent s i a = Ok t /\ is_ascent s i a = Ok u /\ (t = true <-> 0 < pairing n f (root_at s a) i) /\ (u = true <-> pairing n f (root_at s a) i < 0).
Proof. intros Hi Ha. start Ha. rewrite (proj2 (at_rt a Ha)). apply (is_descent_ok n f s n1 gd Y So i a Hi Ha). Qed.
Lemma top_level a : (a < num_roots s)%nat -> level_of r_root s a = Ok (height (root_at s a)) /\ level_of r_coroot s a = Ok (height (coroot_at s a)).
Proof. intros Ha. start Ha. rewrite (proj2 (at_rt a Ha)), (proj2 (at_crt a Ha)). split; apply (level_any n s n1 _ a Ha). Qed.
Lemma top_high : exists l, high_roots s = Ok l /\ StronglySorted gt l /\ forall a, In a l <-> (num_pos s <= a < num_roots s)%nat /\ forall i, (i < n)%nat -> 0 <= pairing n f (root_at s a) i.
Proof.
  destruct (Nat.eq_dec n 0) as [E|N].
  - destruct (top_empty E) as [M ->]. exists []. split; [reflexivity|]. split; [constructor|]. intros a. cbn. split; [tauto|]. intros [H _]. lia.
  - destruct top_good as [gd gd']; destruct top_system as (Y & P & So). destruct (high_ok n f s ltac:(lia) Y) as (l & E & S & A). exists l. split; [exact E|]. split; [exact S|]. intros a. rewrite A. unfold num_roots. split; intros [H H']; (split; [exact H|]); intros i Hi; specialize (H' i Hi); [rewrite (proj2 (at_rt a ltac:(unfold num_roots; lia)))|rewrite <- (proj2 (at_rt a ltac:(unfold num_roots; lia)))]; exact H'.
Qed.
Lemma top_extend im : length im = n -> (forall i, (i < n)%nat -> (nth i im 0 < num_roots s)%nat) ->
  (forall i j, (i < n)%nat -> (j < n)%nat -> value n f (root_at s (nth i im 0%nat)) (coroot_at s (nth j im 0%nat)) = f i j) ->
  exists r, extend_to_roots s im = Ok r /\ length r = num_roots s /\ forall a, (a < num_roots s)%nat -> exists b, get r a = Some b /\ (b < num_roots s)%nat /\ root_at s b = linear n (fun i => root_at s (nth i im 0%nat)) (root_at s a).
Proof.
  intros L Hi V. destruct (Nat.eq_dec n 0) as [E|N].
  - destruct (top_empty E) as [M ->]. exists []. split; [reflexivity|]. split; [reflexivity|]. intros a Ha. cbn in Ha. lia.
  - destruct top_good as [gd gd']; destruct top_system as (Y & P & So). destruct (extend_ok n f s ltac:(lia) gd gd' Y im L Hi) as (r & E & Lr & A).
    + intros i j H1 H2. rewrite <- (proj2 (at_rt _ (Hi i H1))), <- (proj2 (at_crt _ (Hi j H2))). apply V; assumption.
    + exists r. split; [exact E|]. split; [exact Lr|]. intros a Ha. destruct (A a Ha) as (b & G & Hb & Q). exists b. split; [exact G|]. split; [exact Hb|]. rewrite (proj2 (at_rt a Ha)), (proj2 (at_rt b Hb)), Q. unfold linear. apply map_ext. intros k. apply zsum_ext. intros i H. unfold fi. rewrite (proj2 (at_rt _ (Hi i H))). reflexivity.
Qed.
Lemma top_twist tw : length tw = n -> (forall i, (i < n)%nat -> (nth i tw 0 < n)%nat) -> (forall i j, (i < n)%nat -> (j < n)%nat -> f (nth i tw 0%nat) (nth j tw 0%nat) = f i j) ->
  exists r, twist_permutation s tw = Ok r /\ length r = num_roots s /\ forall a, (a < num_roots s)%nat -> exists b, get r a = Some b /\ (b < num_roots s)%nat /\ root_at s b = linear n (fun i => basis n (nth i tw 0%nat)) (root_at s a).
Proof.
  intros L Hi V. destruct (Nat.eq_dec n 0) as [E|N].
  - destruct (top_empty E) as [M ->]. rewrite E in L. destruct tw; [|discriminate]. exists []. split; [reflexivity|]. split; [reflexivity|]. intros a Ha. cbn in Ha. lia.
  - destruct top_good as [gd gd']; destruct top_system as (Y & P & So). destruct (twist_ok n f s ltac:(lia) gd gd' Y tw L Hi V) as (r & E & Lr & A). exists r. split; [exact E|]. split; [exact Lr|].
    intros a Ha. destruct (A a Ha) as (b & G & Hb & Q). exists b. split; [exact G|]. split; [exact Hb|]. rewrite (proj2 (at_rt a Ha)), (proj2 (at_rt b Hb)). exact Q.
Qed.
Lemma top_word a : (a < num_roots s)%nat -> exists w i, reflection_word s a = Ok (w ++ [i] ++ rev w) /\ Forall (fun j => (j < n)%nat) (w ++ [i]) /\
  forall v, length v = n -> word_act n f (w ++ [i] ++ rev w) v = reflect n f (root_at s a) (coroot_at s a) v.
Proof. intros Ha. start Ha. rewrite (proj2 (at_rt a Ha)), (proj2 (at_crt a Ha)). apply (reflection_word_ok n f s n1 gd gd' Y a Ha). Qed.
Lemma top_lookup a : (a < num_roots s)%nat -> lookup_root s (root_at s a) = Ok (minus_nr (num_pos s) a) /\ lookup_coroot s (coroot_at s a) = Ok (minus_nr (num_pos s) a).
Proof.
  intros Ha. start Ha. rewrite (proj2 (at_rt a Ha)), (proj2 (at_crt a Ha)). split.
  - destruct (lookup_any n f s n1 gd gd' Y r_root (rt s a) (or_introl eq_refl)) as [(b & Hb & Eb & E)|[N _]].
    + intros k. pose proof (crt_byte n f s n1 gd gd' Y a k Ha). unfold byte_range. lia.
    + unfold lookup_root. rewrite E. f_equal. f_equal. apply (rt_inj n f s n1 Y); assumption.
    + destruct (N a Ha). reflexivity.
  - destruct (lookup_any n f s n1 gd gd' Y r_coroot (crt s a) (or_intror eq_refl)) as [(b & Hb & Eb & E)|[N _]].
    + intros k. pose proof (crt_byte n f s n1 gd gd' Y a k Ha). unfold byte_range. lia.
    + unfold lookup_coroot. rewrite E. f_equal. f_equal. apply top_inj; [exact Hb|exact Ha|]. right. rewrite (proj2 (at_crt a Ha)), (proj2 (at_crt b Hb)). exact Eb.
    + destruct (N a Ha). reflexivity.
Qed.
Lemma top_lookup_not v : (forall k, -128 <= co v k <= 127) -> (0 < n)%nat ->
  (~ is_root n f v -> lookup_root s v = Ok (num_roots s)) /\ (~ is_root n (flip f) v -> lookup_coroot s v = Ok (num_roots s)).
Proof.
  intros B N. destruct top_good as [gd gd']; destruct top_system as (Y & P & So). assert (n1 : (1 <= n <= 32)%nat) by lia. split; intros NR.
  - destruct (lookup_any n f s n1 gd gd' Y r_root v (or_introl eq_refl) B) as [(b & Hb & Eb & _)|[_ E]]; [|exact E]. destruct NR. exists (crt s b). rewrite <- Eb. apply (rt_rc n f s gd Y b Hb).
  - destruct (lookup_any n f s n1 gd gd' Y r_coroot v (or_intror eq_refl) B) as [(b & Hb & Eb & _)|[_ E]]; [|exact E]. destruct NR. exists (rt s b). rewrite <- Eb. apply rc_flip. apply (rt_rc n f s gd Y b Hb).
Qed.
Lemma top_add a b d : (a < num_roots s)%nat -> (b < num_roots s)%nat -> (d < num_roots s)%nat ->
  (root_at s d = plus n (root_at s a) (root_at s b) -> root_add s a b = Ok (minus_nr (num_pos s) d)) /\
  (coroot_at s d = plus n (coroot_at s a) (coroot_at s b) -> coroot_add s a b = Ok (minus_nr (num_pos s) d)).
Proof.
  intros Ha Hb Hd. start Ha. rewrite (proj2 (at_rt a Ha)), (proj2 (at_rt b Hb)), (proj2 (at_rt d Hd)), (proj2 (at_crt a Ha)), (proj2 (at_crt b Hb)), (proj2 (at_crt d Hd)).
  split; [apply (root_add_ok n f s n1 gd gd' Y a b d Ha Hb Hd)|apply (coroot_add_ok n f s n1 gd gd' Y a b d Ha Hb Hd)].
Qed.

(** ** Subsystems *)
Variable B : bset.
Hypothesis BL : length B = num_roots s.
Hypothesis BR : forall a b d, bmem B a = true -> bmem B b = true -> reflected s a b = Ok d -> bmem B d = true.
Definition summable (a : nat) : Prop := exists b d, bmem B b = true /\ (num_pos s <= b)%nat /\ bmem B d = true /\ (num_pos s <= d)%nat /\ root_at s a = plus n (root_at s b) (root_at s d).
Lemma B_lt a : bmem B a = true -> (a < 2 * num_pos s)%nat.
Proof. intros M. destruct (le_lt_dec (length B) a) as [Q|Q]; [rewrite bmem_over in M by exact Q; discriminate|]. rewrite BL in Q. exact Q. Qed.
Lemma B_refl a b d : bmem B a = true -> bmem B b = true -> (d < 2 * num_pos s)%nat -> rt s d = reflect n f (rt s a) (crt s a) (rt s b) -> bmem B d = true.
Proof.
  intros Ma Mb Hd E. pose proof (B_lt a Ma) as Ha. start Ha. destruct (reflected_ok n f s n1 gd Y a b Ha (B_lt b Mb)) as (d' & E' & Hd' & Q & _). apply (BR a b d Ma Mb). rewrite E'. f_equal. apply (rt_inj n f s n1 Y); [exact Hd'|exact Hd|congruence].
Qed.
Lemma summable_decomp a : (a < num_roots s)%nat -> (summable a <-> decomp n s (fun x => bmem B x = true) a).
Proof.
  intros Ha. unfold summable, decomp, posB. split.
  - intros (b & d & M1 & P1 & M2 & P2 & E). exists b, d. split; [tauto|]. split; [tauto|]. rewrite (proj2 (at_rt a Ha)), (proj2 (at_rt b (B_lt b M1))), (proj2 (at_rt d (B_lt d M2))) in E. exact E.
  - intros (b & d & [M1 P1] & [M2 P2] & E). exists b, d. rewrite (proj2 (at_rt a Ha)), (proj2 (at_rt b (B_lt b M1))), (proj2 (at_rt d (B_lt d M2))). tauto.
Qed.
Lemma skip_nth {A} (d : A) k : forall (l : list A) i, nth i (skipn k l) d = nth (k + i) l d.
Proof. induction k as [|k IH]; intros [|x l] i; cbn; try reflexivity; [destruct i; reflexivity|apply IH]. Qed.
Definition basic (a : nat) : Prop := bmem B a = true /\ (num_pos s <= a)%nat /\ ~ summable a.
Lemma basic_smp a : smp n f s (fun x => bmem B x = true) a <-> basic a.
Proof.
  unfold basic. split.
  - intros S. pose proof (proj1 S) as Q. pose proof (B_lt a (proj1 Q)) as Ha. start Ha. split; [apply Q|]. split; [apply Q|]. rewrite (summable_decomp a Ha). apply (smp_indecomp n f s n1 gd Y _ B_lt B_refl a Q). exact S.
  - intros (M & Hp & N). pose proof (B_lt a M) as Ha. start Ha. apply (smp_indecomp n f s n1 gd Y _ B_lt B_refl a); [split; assumption|]. rewrite <- (summable_decomp a Ha). exact N.
Qed.
Lemma top_basis : exists l, simple_basis s B = Ok l /\ StronglySorted lt l /\ (forall a, In a l <-> basic a).
Proof.
  destruct (Nat.eq_dec n 0) as [E|N].
  - destruct (top_empty E) as [M Es]. assert (Z0 : num_pos s = 0%nat) by (rewrite Es; reflexivity). assert (B0 : B = []) by (apply length_zero_iff_nil; rewrite BL; unfold num_roots; lia).
    exists []. split; [rewrite B0, Es; reflexivity|]. split; [constructor|]. intros a. split; [intros []|]. intros (Q & _). apply B_lt in Q. lia.
  - assert (n1 : (1 <= n <= 32)%nat) by lia. destruct top_good as [gd gd']; destruct top_system as (Y & P & So). unfold simple_basis. cbv zeta. set (rs := repeat false (num_pos s) ++ skipn (num_pos s) B).
    assert (Lr : length rs = (2 * num_pos s)%nat) by (unfold rs; rewrite app_length, repeat_length, skipn_length, BL; unfold num_roots; lia).
    assert (Mr : forall x, bmem rs x = true <-> posB s (fun x => bmem B x = true) x).
    { intros x. unfold posB, rs, bmem. destruct (le_lt_dec (num_pos s) x) as [Q|Q].
      - rewrite app_nth2 by (rewrite repeat_length; lia). rewrite repeat_length, skip_nth. replace (num_pos s + (x - num_pos s))%nat with x by lia. tauto.
      - rewrite app_nth1 by (rewrite repeat_length; lia). split; [|lia]. intros H. exfalso. destruct (nth_in_or_default x (repeat false (num_pos s)) false) as [I|I]; [apply repeat_spec in I|]; congruence. }
    rewrite Lr. destruct (outer_ok n f s n1 gd Y So _ B_lt B_refl rs Lr Mr (2 * num_pos s) 0 rs) as (cset & E & A); [lia|split; [exact Lr|]; intros x; rewrite Mr; split; [intros Q; split; [exact Q|]; lia|tauto]|].
    rewrite E. cbn [bind]. exists (members cset). split; [reflexivity|]. pose proof (left_end n f s n1 gd Y So _ B_lt B_refl rs Lr cset A) as LE. split.
    + unfold members. apply sorted_seq_filter.
    + intros a. rewrite <- basic_smp, <- LE. unfold members. rewrite filter_In, in_seq. split; [tauto|]. intros M. split; [|exact M]. split; [lia|]. destruct (le_lt_dec (length cset) a) as [Q|Q]; [rewrite bmem_over in M by exact Q; discriminate|lia].
Qed.
Lemma top_basis_sums : exists l, simple_basis s B = Ok l /\
  (forall a, bmem B a = true -> (num_pos s <= a)%nat -> exists ms, incl ms l /\ root_at s a = vsum n (map (root_at s) ms)) /\
  (forall a b, In a l -> In b l -> a <> b -> value n f (root_at s a) (coroot_at s b) <= 0).
Proof.
  destruct top_basis as (l & E & _ & I). exists l. split; [exact E|]. split.
  - intros a M Hp. pose proof (B_lt a M) as Ha. start Ha. destruct (sums n f s n1 gd Y _ B_lt B_refl a (conj M Hp)) as (ms & F & Q). rewrite Forall_forall in F. exists ms. split.
    + intros x Ix. apply I. apply basic_smp. apply F. exact Ix.
    + rewrite (proj2 (at_rt a Ha)), Q. f_equal. apply map_ext_in. intros x Ix. symmetry. apply at_rt. apply B_lt. apply (F x Ix).
  - intros a b Ia Ib Nab. apply I in Ia. apply I in Ib. pose proof (B_lt a (proj1 Ia)) as Ha. pose proof (B_lt b (proj1 Ib)) as Hb. start Ha. rewrite (proj2 (at_rt a Ha)), (proj2 (at_crt b Hb)).
    apply (smp_pair n f s n1 gd Y _ B_lt a b); [apply basic_smp; exact Ia|apply basic_smp; exact Ib|exact Nab].
Qed.
Lemma top_pos_simples ps : length ps = num_pos s -> (forall k, (k < num_pos s)%nat -> bmem ps k = bmem B (num_pos s + k)) -> pos_simples s ps = simple_basis s B.
Proof.
  intros L M. destruct top_basis as (l & -> & So1 & I). destruct (Nat.eq_dec n 0) as [E|N].
  - destruct (top_empty E) as [Mx Es]. assert (Z0 : num_pos s = 0%nat) by (rewrite Es; reflexivity). rewrite Z0 in L. apply length_zero_iff_nil in L. rewrite L.
    destruct l as [|x t]; [rewrite Es; reflexivity|]. exfalso. pose proof (proj1 (I x) (or_introl eq_refl)) as [Q _]. apply B_lt in Q. lia.
  - assert (n1 : (1 <= n <= 32)%nat) by lia. destruct top_good as [gd gd']; destruct top_system as (Y & P & So).
    destruct (pos_simples_sys n f s n1 gd Y So _ B_lt B_refl B BL ps L) as (l' & E & So2 & I').
    + intros x. unfold posB. destruct (le_lt_dec (num_pos s) x) as [Q|Q].
      * rewrite bmem_over by lia. split; [discriminate|]. intros [H _]. apply B_lt in H. lia.
      * rewrite (M x Q). split; [intros H; split; [exact H|lia]|tauto].
    + rewrite E. f_equal. apply (strict_ext lt Nat.lt_irrefl Nat.lt_trans); [exact So2|exact So1|]. intros x. rewrite I', I. apply basic_smp.
Qed.
End Top.
