(** Global Tits groups: the involution attached to a twisted involution, cross actions and Cayley transforms of pairs *)

From Coq Require Import List Arith ZArith QArith Lia Lqa.
From Verif Require Import MatSpec MatLin WeylModel WeylSpec TwistSpec WeylExchange WeylGroup WeylSign TwistWords RatVecSpec YvSpec YvProofs YvAct GtSpec GtMath.
Import ListNotations.
Open Scope nat_scope.

Section Theta.
Variables (r n : nat) (A B C : nat -> nat -> Z).
Hypothesis CA : Cartan_like n C.
Hypothesis PR : forall s t, s < n -> t < n -> zsum r (fun k => B k s * A k t)%Z = C s t.
Variable ell : list nat -> nat.
Hypothesis ELL : forall u, over n u -> shortest n (coxeter C) u (ell u).
Variables (f : list nat) (g : nat -> nat -> Z).
Hypothesis TW : twist_of n C f.
Hypothesis GG : forall i j, i < r -> j < r -> zsum r (fun k => g i k * g k j)%Z = if i =? j then 1%Z else 0%Z.
Hypothesis GA : forall s i, s < n -> i < r -> zsum r (fun j => g i j * A j s)%Z = A i (nth s f 0).
Hypothesis GB : forall s j, s < n -> j < r -> zsum r (fun i => B i (nth s f 0%nat) * g i j)%Z = B j s.
Notation fs s := (nth s f 0%nat).
Notation ev := (rootQ r B).
Notation refl := (reflQ r A B).
Notation act := (wordQ r A B).
Notation gq := (actQ r g).
Notation th := (thetaQ r A B g).
Notation "u ~ v" := (same n (coxeter C) u v) (at level 70).
Notation vec s := (fun k => inject_Z (A k s)).
Notation TI u := (twisted_involution n C f u).

Lemma f_in s : s < n -> fs s < n.
Proof. intros Hs. now apply TW. Qed.
Lemma f_twice s : s < n -> fs (fs s) = s.
Proof. intros Hs. now apply TW. Qed.
Lemma qsum_S m h : qsum (S m) h = (qsum m h + h m)%Q.
Proof. reflexivity. Qed.
Lemma qsum_0 h : qsum 0 h = 0%Q.
Proof. reflexivity. Qed.
Lemma qsum_zero m h : (forall k, k < m -> (h k == 0)%Q) -> (qsum m h == 0)%Q.
Proof. induction m as [|m IH]; intros H; [reflexivity|]. rewrite qsum_S, IH, (H m) by (auto; intros; apply H; lia). reflexivity. Qed.
Lemma qsum_swap m k (h : nat -> nat -> Q) : (qsum m (fun i => qsum k (fun j => h i j)) == qsum k (fun j => qsum m (fun i => h i j)))%Q.
Proof.
  revert k. induction m as [|m IH]; intros k.
  - rewrite qsum_0. symmetry. apply qsum_zero. intros j _. reflexivity.
  - rewrite qsum_S, IH, <- qsum_plus. apply qsum_ext. intros j _. rewrite qsum_S. ring.
Qed.
Lemma pair_mx y q : (pairQ r y (gq q) == pairQ r (fun j => zsum r (fun i => y i * g i j)%Z) q)%Q.
Proof.
  unfold pairQ, actQ. transitivity (qsum r (fun i => qsum r (fun j => inject_Z (y i * g i j) * q j)))%Q.
  - apply qsum_ext. intros i _. rewrite Qmult_comm, <- qsum_scale. apply qsum_ext. intros j _. rewrite inject_Z_mult. ring.
  - rewrite qsum_swap. apply qsum_ext. intros j _. rewrite <- qsum_zsum, qsum_scale. reflexivity.
Qed.
Lemma pair_ext_l y z q : (forall i, i < r -> y i = z i) -> (pairQ r y q == pairQ r z q)%Q.
Proof. intros H. apply qsum_ext. intros i Hi. now rewrite (H i Hi). Qed.
Lemma ev_g s q : s < n -> (ev (fs s) (gq q) == ev s q)%Q.
Proof. intros Hs. unfold rootQ. rewrite pair_mx. apply pair_ext_l. intros j Hj. now apply GB. Qed.
Lemma g_vec s : s < n -> veq r (gq (vec s)) (vec (fs s)).
Proof. intros Hs i Hi. change (gq (vec s) i) with (pairQ r (fun j => g i j) (vec s)). rewrite pair_int, GA by auto. reflexivity. Qed.
Lemma pair_unit j q : j < r -> (pairQ r (fun k => if j =? k then 1%Z else 0%Z) q == q j)%Q.
Proof.
  intros Hj. unfold pairQ. clear - Hj. induction r as [|m IH]; [lia|]. rewrite qsum_S. destruct (Nat.eqb_spec j m) as [->|N].
  - assert (E : (qsum m (fun k => inject_Z (if m =? k then 1%Z else 0%Z) * q k) == 0)%Q).
    { apply qsum_zero. intros k Hk. destruct (Nat.eqb_spec m k); [lia|]. change (inject_Z 0) with 0%Q. ring. }
    rewrite E. change (inject_Z 1) with 1%Q. ring.
  - rewrite IH by lia. change (inject_Z 0) with 0%Q. ring.
Qed.
Lemma g_g q : veq r (gq (gq q)) q.
Proof.
  intros i Hi. change (gq (gq q) i) with (pairQ r (fun j => g i j) (gq q)). rewrite pair_mx. rewrite <- (pair_unit i q Hi). apply pair_ext_l. intros j Hj. now rewrite GG.
Qed.
Lemma g_refl s q : s < n -> veq r (gq (refl s q)) (refl (fs s) (gq q)).
Proof.
  intros Hs. eapply veq_trans; [apply actQ_ext, refl_shift|]. eapply veq_trans; [apply actQ_add|]. intros i Hi. rewrite (actQ_scale r g (vec s) (- ev s q) i Hi), (g_vec s Hs i Hi).
  unfold reflQ. rewrite ev_g by auto. ring.
Qed.
Lemma g_act u q : over n u -> veq r (gq (act u q)) (act (relabel f u) (gq q)).
Proof.
  induction u as [|s u IH]; intros O; [apply veq_refl|]. apply over_cons in O. destruct O as [Hs O]. rewrite act_cons. eapply veq_trans; [now apply g_refl|].
  change (relabel f (s :: u)) with (fs s :: relabel f u). rewrite act_cons. apply refl_ext. now apply IH.
Qed.

(** *** the involution *)
Lemma th_cons s u q : th (s :: u) q = refl s (th u q).
Proof. reflexivity. Qed.
Lemma th_ext u p q : veq r p q -> veq r (th u p) (th u q).
Proof. intros H. apply act_ext. now apply actQ_ext. Qed.
Lemma th_add u p q : veq r (th u (fun i => p i + q i)%Q) (fun i => th u p i + th u q i)%Q.
Proof. unfold thetaQ. eapply veq_trans; [apply act_ext, actQ_add|]. apply act_add. Qed.
Lemma th_scale u q c : veq r (th u (fun i => c * q i)%Q) (fun i => c * th u q i)%Q.
Proof. unfold thetaQ. eapply veq_trans; [apply act_ext, actQ_scale|]. apply act_scale. Qed.
Lemma th_diff u p q : is_diff r p q -> is_diff r (th u p) (th u q).
Proof. intros H. apply diff_act. now apply diff_mx. Qed.
Lemma th_same u v q : u ~ v -> veq r (th u q) (th v q).
Proof. intros E. apply (act_same r n A B C CA PR u v E). Qed.
Lemma th_post u s q : s < n -> veq r (th (u ++ [fs s]) q) (th u (refl s q)).
Proof. intros Hs. unfold thetaQ. rewrite act_app. apply act_ext. cbn [wordQ fold_right]. apply veq_sym. now apply g_refl. Qed.
Lemma th_th u q : TI u -> veq r (th u (th u q)) q.
Proof.
  intros [O E]. unfold thetaQ at 1. eapply veq_trans; [apply act_ext; unfold thetaQ; now apply g_act|]. rewrite <- act_app.
  eapply veq_trans; [apply (act_same r n A B C CA PR _ _ E)|]. apply g_g.
Qed.
Lemma conj_th s u q : s < n -> veq r (th (s :: u ++ [fs s]) (refl s q)) (refl s (th u q)).
Proof.
  intros Hs. rewrite th_cons. apply refl_ext. eapply veq_trans; [now apply th_post|]. apply th_ext. now apply (refl_square r n A B C CA PR).
Qed.
Lemma comm_th s u q : s < n -> commutes n C f u s -> veq r (th u (refl s q)) (refl s (th u q)).
Proof. intros Hs E. rewrite <- th_cons. eapply veq_trans; [apply veq_sym; now apply th_post|]. now apply th_same, same_sym. Qed.
(** values of combinations of roots *)
Definition evc (c : nat -> Z) (q : nat -> Q) : Q := qsum n (fun k => inject_Z (c k) * ev k q)%Q.
Lemma evc_ext c d q : (forall k, k < n -> c k = d k) -> (evc c q == evc d q)%Q.
Proof. intros H. apply qsum_ext. intros k Hk. now rewrite (H k Hk). Qed.
Lemma evc_simple z s q : s < n -> (evc (fun j => z * simple_root s j)%Z q == inject_Z z * ev s q)%Q.
Proof.
  intros Hs. unfold evc. clear - Hs. induction n as [|m IH]; [lia|]. rewrite qsum_S. unfold simple_root at 2. destruct (Nat.eqb_spec m s) as [->|N].
  - assert (E : (qsum s (fun k => inject_Z (z * simple_root s k) * ev k q) == 0)%Q).
    { apply qsum_zero. intros k Hk. unfold simple_root. destruct (Nat.eqb_spec k s); [lia|]. rewrite Z.mul_0_r. change (inject_Z 0) with 0%Q. ring. }
    rewrite E, Z.mul_1_r. ring.
  - rewrite IH by lia. rewrite Z.mul_0_r. change (inject_Z 0) with 0%Q. ring.
Qed.
Lemma evc_refl c i q : i < n -> (evc c (refl i q) == evc (root_reflect n C i c) q)%Q.
Proof.
  intros Hi. transitivity (evc c q + evc (fun j => (- pairing n C c i) * simple_root i j)%Z q)%Q.
  - rewrite evc_simple by auto. unfold evc. transitivity (qsum n (fun k => inject_Z (c k) * ev k q + (inject_Z (c k * C k i) * (- ev i q))))%Q.
    + apply qsum_ext. intros k Hk. rewrite (ev_refl r n A B C PR k i q Hk Hi), inject_Z_mult. ring.
    + rewrite qsum_plus, qsum_scale, qsum_zsum. unfold pairing. rewrite inject_Z_opp. ring.
  - unfold evc. rewrite <- qsum_plus. apply qsum_ext. intros j _. unfold root_reflect, simple_root. destruct (j =? i); rewrite <- Qmult_plus_distr_l, <- inject_Z_plus; [replace (c j + - pairing n C c i * 1)%Z with (c j - pairing n C c i)%Z by ring|replace (c j + - pairing n C c i * 0)%Z with (c j) by ring]; reflexivity.
Qed.
Lemma evc_act u : forall c q, over n u -> (evc c (act u q) == evc (root_word n C u c) q)%Q.
Proof.
  induction u as [|s u IH]; intros c q O; [reflexivity|]. apply over_cons in O. destruct O as [Hs O]. rewrite act_cons, evc_refl by auto. rewrite IH by auto. reflexivity.
Qed.
Definition sg (s : nat) (u : list nat) : Z := if ell (s :: u) <? ell u then (-1)%Z else 1%Z.
Lemma ev_th s u q : s < n -> over n u -> commutes n C f u s -> (ev s (th u q) == inject_Z (sg s u) * ev s q)%Q.
Proof.
  intros Hs O E. transitivity (evc (fun j => 1 * simple_root s j)%Z (th u q)).
  { rewrite evc_simple by auto. change (inject_Z 1) with 1%Q. ring. }
  unfold thetaQ. rewrite evc_act by auto. transitivity (evc (fun j => sg s u * simple_root (fs s) j)%Z (gq q)).
  - apply evc_ext. intros k Hk. unfold sg. rewrite <- (carried n C CA ell ELL u s (fs s) Hs (f_in s Hs) O E k Hk). apply (rw_ext n C u O); [|auto]. intros j _. lia.
  - rewrite evc_simple by now apply f_in. now rewrite ev_g.
Qed.
Lemma th_vec s u : s < n -> over n u -> commutes n C f u s -> veq r (th u (vec s)) (fun i => inject_Z (sg s u) * inject_Z (A i s))%Q.
Proof.
  intros Hs O E i Hi. pose proof (comm_th s u (vec s) Hs E i Hi) as Q1. pose proof (th_ext u _ _ (refl_vec r n A B C CA PR s Hs) i Hi) as Q2.
  assert (Q3 : veq r (fun i => - inject_Z (A i s))%Q (fun i => (-1) * vec s i)%Q) by (intros j _; ring). pose proof (th_ext u _ _ Q3 i Hi) as Q4. rewrite (th_scale u (vec s) (-1) i Hi) in Q4.
  rewrite Q2, Q4 in Q1. unfold reflQ in Q1. rewrite (ev_th s u (vec s) Hs O E), (ev_vec r n A B C PR s s Hs Hs), (proj1 CA s Hs) in Q1. change (inject_Z 2) with 2%Q in Q1.
  set (x := th u (vec s) i) in *. clearbody x. set (y := (inject_Z (sg s u) * inject_Z (A i s))%Q) in *.
  assert (Q5 : (x - inject_Z (sg s u) * 2 * inject_Z (A i s) == x - 2 * y)%Q) by (unfold y; ring). rewrite Q5 in Q1. lra.
Qed.

(** *** strong involutions *)
Notation central := (centralQ r n B).
Notation sq := (squareQ r A B g).
Notation valid := (strong r n A B C f g).
Lemma sq_diff u p q : is_diff r p q -> is_diff r (sq p u) (sq q u).
Proof. intros H. apply (diff_add r); [exact H|now apply th_diff]. Qed.
Lemma sq_same u v q : u ~ v -> veq r (sq q u) (sq q v).
Proof. intros E i Hi. unfold squareQ. now rewrite (th_same u v q E i Hi). Qed.
Lemma valid_change p q u v : is_diff r p q -> u ~ v -> valid p u -> valid q v.
Proof.
  intros H E (T & P). split; [now apply (TI_same n C f TW u v)|]. apply (central_diff r n B (sq p u)); [|exact P].
  eapply diff_trans; [apply sq_diff, H|]. apply veq_diff. now apply sq_same.
Qed.
Lemma valid_complex s q u : s < n -> valid q u -> valid (refl s q) (s :: u ++ [fs s]).
Proof.
  intros Hs (T & P). split; [now apply (TI_conj n C f TW)|]. apply (central_diff r n B (refl s (sq q u))); [|now apply (central_refl r n A B C PR)].
  apply veq_diff. intros i Hi. unfold squareQ at 2. rewrite (conj_th s u q Hs i Hi). now apply refl_add.
Qed.
Lemma short_once u k k' : shortest n (coxeter C) u k -> shortest n (coxeter C) u k' -> k = k'.
Proof. intros [(v & O1 & E1 & L1) H1] [(v' & O2 & E2 & L2) H2]. pose proof (H1 v' O2 E2). pose proof (H2 v O1 E1). lia. Qed.
Lemma short_same u v k : u ~ v -> shortest n (coxeter C) u k -> shortest n (coxeter C) v k.
Proof.
  intros E [(w & O1 & E1 & L1) H1]. split.
  - exists w. split; [auto|]. split; [|auto]. eapply same_trans; [apply same_sym, E|exact E1] || (eapply same_trans; [exact E1|exact E]).
  - intros w' O2 E2. apply H1; [auto|]. eapply same_trans; [exact E|exact E2] || (eapply same_trans; [exact E2|apply same_sym, E]).
Qed.
Lemma sg_im s u : imaginary n C f u s -> over n u -> s < n -> sg s u = 1%Z.
Proof.
  intros (_ & k & K1 & K2) O Hs. unfold sg. rewrite <- (short_once _ _ _ K1 (ELL u O)), <- (short_once _ _ _ K2 (ELL (s :: u) ltac:(now apply over_cons))).
  destruct (Nat.ltb_spec (S k) k); [lia|auto].
Qed.
Lemma sg_re s u : real n C f u s -> over n u -> s < n -> sg s u = (-1)%Z.
Proof.
  intros (_ & k & K1 & K2) O Hs. unfold sg. rewrite <- (short_once _ _ _ K1 (ELL u O)), <- (short_once _ _ _ K2 (ELL (s :: u) ltac:(now apply over_cons))).
  destruct (Nat.ltb_spec k (S k)); [auto|lia].
Qed.
Definition im_cross (s : nat) (q : nat -> Q) : nat -> Q := fun i => (refl s q i + inject_Z (A i s))%Q.
Lemma im_twice s q : s < n -> veq r (im_cross s (im_cross s q)) q.
Proof.
  intros Hs i Hi. unfold im_cross at 1. pose proof (refl_add r A B s (refl s q) (vec s) i Hi) as E. change (fun i => (refl s q i + vec s i)%Q) with (im_cross s q) in E. rewrite E.
  rewrite (refl_square r n A B C CA PR s q Hs i Hi), (refl_vec r n A B C CA PR s Hs i Hi). ring.
Qed.
Lemma valid_imaginary s q u : s < n -> imaginary n C f u s -> valid q u -> valid (im_cross s q) u.
Proof.
  intros Hs K (T & P). pose proof T as [O _]. split; [exact T|]. apply (central_diff r n B (fun i => refl s (sq q u) i + inject_Z 2 * inject_Z (A i s))%Q).
  - apply veq_diff. intros i Hi. unfold squareQ. rewrite (th_add u (refl s q) (vec s) i Hi), (comm_th s u q Hs (proj1 K) i Hi), (th_vec s u Hs O (proj1 K) i Hi), (sg_im s u K O Hs).
    rewrite (refl_add r A B s q (th u q) i Hi). unfold im_cross. change (inject_Z 1) with 1%Q. change (inject_Z 2) with 2%Q. ring.
  - apply (central_add r n B); [now apply (central_refl r n A B C PR)|]. now apply (central_vec r n A B C PR).
Qed.
(** *** imaginary roots of strong involutions take integral values *)
Lemma imaginary_value s q u : s < n -> imaginary n C f u s -> valid q u -> exists z, (ev s q == inject_Z z)%Q.
Proof.
  intros Hs K (T & P). pose proof T as [O _]. destruct (P s Hs) as (z & E). exists z. unfold squareQ in E. rewrite (ev_add r B s q (th u q)) in E. rewrite (ev_th s u q Hs O (proj1 K)), (sg_im s u K O Hs) in E.
  rewrite inject_Z_mult in E. change (inject_Z 1) with 1%Q in E. change (inject_Z 2) with 2%Q in E. lra.
Qed.
Lemma commutes_over s u : s < n -> over n u -> commutes n C f u s -> TI u -> TI (s :: u).
Proof. intros Hs O E T. apply (TI_comm n C f TW s u Hs T). now apply (comm_iff n C f TW). Qed.
Lemma commutes_up s u : s < n -> commutes n C f u s -> commutes n C f (s :: u) s.
Proof.
  intros Hs E. unfold commutes in *. apply (same_app n (coxeter C) [s] [s] (s :: u) (u ++ [fs s])); [apply same_refl|exact E].
Qed.
Lemma im_to_re s u : s < n -> over n u -> imaginary n C f u s -> real n C f (s :: u) s.
Proof.
  intros Hs O (E & k & K1 & K2). split; [now apply commutes_up|]. exists k. split; [exact K2|]. eapply short_same; [|exact K1]. apply same_sym. exact (same_app n (coxeter C) [s; s] [] u u (same_square n (coxeter C) s Hs) (same_refl n _ u)).
Qed.
Lemma re_to_im s u : s < n -> over n u -> real n C f u s -> imaginary n C f (s :: u) s.
Proof.
  intros Hs O (E & k & K1 & K2). split; [now apply commutes_up|]. exists k. split; [exact K2|]. eapply short_same; [|exact K1]. apply same_sym. exact (same_app n (coxeter C) [s; s] [] u u (same_square n (coxeter C) s Hs) (same_refl n _ u)).
Qed.
(** square of a Cayley transform *)
Lemma sq_Cayley s q u : s < n -> over n u -> commutes n C f u s -> veq r (sq q (s :: u)) (fun i => sq q u i + (- (inject_Z (sg s u) * ev s q)) * inject_Z (A i s))%Q.
Proof. intros Hs O E i Hi. unfold squareQ. rewrite th_cons. unfold reflQ. rewrite (ev_th s u q Hs O E). ring. Qed.
Lemma valid_Cayley s q u : s < n -> commutes n C f u s -> even_apart (ev s q) 0 -> valid q u -> valid q (s :: u).
Proof.
  intros Hs E (z & V) (T & P). pose proof T as [O _]. split; [now apply commutes_over|]. apply (central_diff r n B (fun i => sq q u i + inject_Z (- (sg s u * (2 * z))) * inject_Z (A i s))%Q).
  - apply veq_diff. intros i Hi. rewrite (sq_Cayley s q u Hs O E i Hi). rewrite inject_Z_opp, inject_Z_mult, <- V. ring.
  - apply (central_add r n B); [exact P|]. apply (central_vec r n A B C PR); auto. rewrite Z.even_opp, !Z.even_mul. now rewrite orb_true_r || (rewrite Bool.orb_true_r).
Qed.
(** the correction *)
Definition clear_root (s : nat) (q : nat -> Q) : nat -> Q := fun i => (q i - ev s q / 2 * inject_Z (A i s))%Q.
Lemma clear_ev s q : s < n -> (ev s (clear_root s q) == 0)%Q.
Proof.
  intros Hs. transitivity (ev s (fun i => q i + (- (ev s q / 2)) * inject_Z (A i s)))%Q; [apply ev_ext; intros i _; unfold clear_root; ring|].
  rewrite (ev_shift r n A B C PR) by auto. rewrite (proj1 CA s Hs). change (inject_Z 2) with 2%Q. field.
Qed.
Lemma clear_valid s q u : s < n -> real n C f u s -> valid q u -> valid (clear_root s q) u.
Proof.
  intros Hs K (T & P). pose proof T as [O _]. split; [exact T|]. apply (central_diff r n B (sq q u)); [|exact P]. apply veq_diff, veq_sym. intros i Hi. unfold squareQ.
  assert (E : veq r (clear_root s q) (fun i => q i + (- (ev s q / 2)) * vec s i)%Q) by (intros j _; unfold clear_root; ring).
  rewrite (th_ext u _ _ E i Hi), (th_add u q (fun i => (- (ev s q / 2)) * vec s i)%Q i Hi), (th_scale u (vec s) _ i Hi), (th_vec s u Hs O (proj1 K) i Hi), (sg_re s u K O Hs).
  unfold clear_root. change (inject_Z (-1)) with (-1)%Q. ring.
Qed.
(** it is of the form q + x - theta x: the torus part modulo such elements does not change *)
Lemma clear_class s q u : s < n -> over n u -> real n C f u s -> exists x, veq r (clear_root s q) (fun i => q i + (x i - th u x i))%Q.
Proof.
  intros Hs O K. exists (fun i => (- (ev s q / 4)) * vec s i)%Q. intros i Hi. rewrite (th_scale u (vec s) _ i Hi), (th_vec s u Hs O (proj1 K) i Hi), (sg_re s u K O Hs). unfold clear_root. change (inject_Z (-1)) with (-1)%Q. field.
Qed.
End Theta.
