(** Property C177: validity of elements of global Tits groups, relative to a subsystem. *)

From Coq Require Import List Arith ZArith QArith Qfield Bool Lia Lqa Ascii Permutation.
From Verif Require Import RootModel.
From Verif Require Import WeylModel WeylSpec WeylTable WeylExchange WeylGroup WeylOps WeylMake WeylExt WeylProps TwistSpec TwistModel TwistProps.
From Verif Require RootProps.
From Verif Require Import BitsModel VecModel VecProofs RunModel RunProofs MatModel MatSpec MatProofs MatOps RatVecModel RatVecSpec RatVecProofs RatVecOps DatModel DatSpec DatProps DfSpec DfProps SsModel
  YvModel YvSpec YvProofs YvOps YvAct GtModel GtSpec GtMath GtTheta GtRuns GtGroup GtMake GtProps GvModel.
Import ListNotations.
Open Scope nat_scope.

Section Props.
Variables (r n : nat) (A B C : nat -> nat -> Z) (f : list nat) (g : nat -> nat -> Z) (G : global).
Hypothesis HG : global_of r n A B C f g G.
Variables (sub : subsys) (m : nat) (c : nat -> nat -> Z).
Hypothesis HR : d_rank (ss_par sub) = r.
Hypothesis HM : s_rank (ss_sys sub) = m.
(** column [s] of [c] is the coroot, in the parent datum, of simple root [s] of the subsystem *)
Hypothesis HC : forall s, s < m -> exists p v, vget (ss_pos sub) s = Ok p /\ d_coroot (ss_par sub) p = Ok v /\ is_vec v r (fun i => c i s).
Notation square := (squareQ r A B g).

(** the test says whether all those coroots take even values at the square *)
Theorem C177_sub a q u M : elt_of r n G q u a -> sized_by M (fst a) -> (M < 2 ^ 60)%Z ->
  (forall s, (s < m)%nat -> zsum r (fun i => Z.abs (c i s)) * (2 * M) < 2 ^ 31)%Z ->
  gives (gt_valid_sub G sub a) (fun b => b = true <-> forall s, s < m -> even_apart (pairQ r (fun i => c i s) (square q u)) 0) (fun e => e = Overflow).
Proof.
  intros EA SM LM HS. unfold gt_valid_sub. rewrite HR, HM.
  eapply gives_bind with (P := fun alpha => is_mx alpha r m c).
  { apply (gives_upto0 (fun t M' => is_mx M' r m (fun i j => if j <? t then c i j else 0%Z))).
    - eapply is_mx_ext; [apply fill_ok|]. intros i j _ _. reflexivity.
    - intros s M' Hs HX. destruct (HC s Hs) as (p & v & -> & Ev & Hv). cbn [bind]. rewrite Ev. cbn [bind].
      eapply gives_mono; [eapply set_column_ok; [exact HX|exact Hs|exact Hv]|]. intros M'' H2. eapply is_mx_ext; [exact H2|]. intros i j Hi Hj. cbn beta.
      destruct (Nat.eqb_spec j s) as [->|N]; [rewrite (proj2 (Nat.ltb_lt s (S s))) by lia; reflexivity|].
      destruct (Nat.ltb_spec j s), (Nat.ltb_spec j (S s)); try lia; reflexivity.
    - intros M' HX. eapply is_mx_ext; [exact HX|]. intros i j Hi Hj. cbn beta. now rewrite (proj2 (Nat.ltb_lt j m) Hj). }
  intros alpha HA. eapply gives_bind; [apply (C162_square r n A B C f g G HG a q u M EA SM LM)|]. intros y (Ey & Sy & Dy).
  assert (D0 : (0 < den (fst a))%Z) by (destruct EA as ((p & R & _) & _); apply R). assert (den y <= den (fst a))%Z by (apply Z.divide_pos_le; [lia|exact Dy]). pose proof (proj1 SM).
  eapply gives_conv; [| |apply (central_rv to_int alpha y r m c (square q u) (2 * M)%Z)]; try lia; auto.
  - intros e [].
  - intros z Hz. apply to_int_id. lia.
Qed.

Lemma pair_comb k (e : nat -> Z) (x : nat -> Q) : (forall s, s < k -> even_apart (rootQ r B s x) 0) -> even_apart (pairQ r (fun i => zsum k (fun s => e s * B i s)%Z) x) 0.
Proof.
  induction k as [|k IH]; intros H.
  - apply even_refl. unfold pairQ. apply qsum_zero. intros i _. change (zsum 0 (fun s => e s * B i s)%Z) with 0%Z. ring.
  - assert (H1 : even_apart (rootQ r B k x) 0) by (apply H; lia). pose proof (even_add _ _ _ _ (IH (fun s Hs => H s (Nat.lt_lt_succ_r _ _ Hs))) (even_scale _ _ (e k) H1)) as H2.
    eapply even_eq; [| |exact H2].
    + unfold rootQ, pairQ. rewrite <- qsum_scale, <- qsum_plus. apply qsum_ext. intros i _. change (zsum (S k) (fun s => e s * B i s)%Z) with (zsum k (fun s => e s * B i s) + e k * B i k)%Z.
      rewrite inject_Z_plus, inject_Z_mult. ring.
    + ring.
Qed.
(** for a parent datum whose coroots are combinations of the roots that define the centre, the test is weaker than validity *)
Theorem C177_weaker a q u M e : elt_of r n G q u a -> sized_by M (fst a) -> (M < 2 ^ 60)%Z ->
  (forall s, (s < m)%nat -> zsum r (fun i => Z.abs (c i s)) * (2 * M) < 2 ^ 31)%Z ->
  (forall s i, s < m -> i < r -> c i s = zsum n (fun k => e s k * B i k)%Z) ->
  strong r n A B C f g q u -> gives (gt_valid_sub G sub a) (fun b => b = true) (fun e => e = Overflow).
Proof.
  intros EA SM LM HS HE (_ & V). eapply gives_mono; [apply (C177_sub a q u M EA SM LM HS)|]. intros b Hb. apply Hb. intros s Hs.
  eapply even_eq; [|reflexivity|apply (pair_comb n (e s) (square q u) V)]. apply pair_ext_l. intros i Hi. symmetry. now apply HE.
Qed.
End Props.

(** * the group of the datum of GSp(4), with the trivial distinguished involution *)
Definition s2_comps : list component := [mk_comp "C" 0 [0; 1]].
Definition s2_W : weyl_group := Eval vm_compute in match make_weyl 2 s2_comps with Ok W => W | Fail _ => mk_weyl [] [] [] [] [] end.
Definition s2_C : nat -> nat -> Z := pairings 3 gA gB.
Lemma s2_describes : describes 2 s2_C s2_comps.
Proof.
  split; [vm_compute; auto|]. split; [reflexivity|]. split.
  - intros c I. cbn in I. destruct I as [<-|[]]; (split; [vm_compute; auto 10|]); intros i j p q Hi Hj.
    do 2 (destruct i as [|i]; [cbn in Hi; injection Hi as <-; do 2 (destruct j as [|j]; [cbn in Hj; injection Hj as <-; vm_compute; reflexivity|]); destruct j; discriminate Hj|]). destruct i; discriminate Hi.
  - intros c d p q I J N. cbn in I, J. destruct I as [<-|[]], J as [<-|[]]. now contradiction N.
Qed.
Lemma s2_weyl : weyl_of 2 s2_C s2_W.
Proof. exists s2_comps. split; [exact s2_describes|]. split; [lia|]. vm_compute. reflexivity. Qed.
Definition s2_id : matrix Z := mk_mat 3 3 [1; 0; 0; 0; 1; 0; 0; 0; 1]%Z.
Definition S2 : global := Eval vm_compute in match make_global gsp s2_W [0; 1] s2_id with Ok G => G | Fail _ => mk_global s2_W [] gsp s2_id end.
Definition h2 : nat -> nat -> Z := fun i j => RootProps.ent 3 (mdata s2_id) j i.
Lemma S2_made : make_global gsp s2_W [0; 1] s2_id = Ok S2. Proof. vm_compute. reflexivity. Qed.
Lemma s2_twist : twist_of 2 s2_C [0; 1].
Proof.
  split; [reflexivity|]. split.
  - intros s Hs. do 2 (destruct s as [|s]; [vm_compute; auto 10 with arith|]). lia.
  - intros s t Hs Ht. do 2 (destruct s as [|s]; [do 2 (destruct t as [|t]; [reflexivity|]); lia|]). lia.
Qed.
Lemma s2_mx : is_mx s2_id 3 3 (RootProps.ent 3 (mdata s2_id)).
Proof. is_matrix 3%nat 3%nat. Qed.
Lemma s2_permutes : permutes_simple 3 2 gA gB (RootProps.ent 3 (mdata s2_id)) (fun s => nth s [0; 1] 0).
Proof.
  intros i Hi. do 2 (destruct i as [|i]; [split; [cbn; lia|]; split; [vm_compute; reflexivity|]; intros v Lv; list_of v 3%nat; cbn -[Z.mul Z.add]; ring|]). lia.
Qed.
Lemma s2_inv : involutive 3 (RootProps.ent 3 (mdata s2_id)).
Proof. intros v Lv. list_of v 3%nat. cbn -[Z.mul Z.add]. do 2 (f_equal; [ring|]). f_equal. ring. Qed.
Lemma S2_global : global_of 3 2 gB gA s2_C [0; 1] h2 S2.
Proof.
  pose proof (C162_make 3 2 gA gB gsp s2_W [0; 1] s2_id _ (proj1 (proj1 datum_gsp)) s2_weyl s2_twist s2_mx s2_permutes s2_inv) as E. rewrite S2_made in E. apply E.
Qed.
Definition q2 (l : list Z) : nat -> Q := fun i => (nth i l 0%Z # 2)%Q.
Definition e2 (l : list Z) : gelt := (mk_rv l 2%Z, w_id s2_W).
Lemma s2_elt l : length l = 3 -> forallb (fun z => Z.abs z <? 2 ^ 62)%Z l = true -> elt_of 3 2 S2 (q2 l) [] (e2 l).
Proof.
  intros L B0. split; [|split; [intros t []|vm_compute; reflexivity]]. exists (q2 l). split; [|intros i _; apply even_refl; reflexivity]. split; [cbn; lia|]. exists (fun i => nth i l 0%Z).
  split; [split; [exact L|]; intros i Hi; apply nth_error_nth'; cbn [fst e2 num]; lia|]. intros i Hi. split.
  - rewrite forallb_forall in B0. specialize (B0 (nth i l 0%Z) ltac:(apply nth_In; rewrite L; exact Hi)). apply Z.ltb_lt in B0. unfold in64. lia.
  - unfold q2. unfold Qeq. cbn. lia.
Qed.
Lemma s2_strong : strong 3 2 gB gA s2_C [0; 1] h2 (q2 [1; 1; 0]%Z) [].
Proof.
  split; [split; [intros t []|apply same_refl]|]. intros s Hs. apply red_even. do 2 (destruct s as [|s]; [vm_compute; reflexivity|]). lia.
Qed.

(** with the datum of the group itself as parent, coroots are tested where validity tests roots: for the full subsystem a valid element is rejected *)
Theorem C177_parent_refuted : exists t q a, datum_of i32 3 2 gA gB gsp D /\ make_global gsp s2_W [0; 1] s2_id = Ok S2 /\ SsModel.subsystem D [4; 5] = Ok t /\ elt_of 3 2 S2 q [] a /\ strong 3 2 gB gA s2_C [0; 1] h2 q [] /\ gt_valid S2 a true = Ok true /\ gt_valid_sub S2 t a = Ok false.
Proof.
  eexists. exists (q2 [1; 1; 0]%Z), (e2 [1; 1; 0]%Z). split; [apply datum_gsp|]. split; [exact S2_made|]. split; [vm_compute; reflexivity|].
  split; [now apply s2_elt|]. split; [exact s2_strong|]. split; vm_compute; reflexivity.
Qed.

(** with the dual datum as parent: the subsystem of the first simple root *)
Definition D2 : datum := Eval vm_compute in match root_datum i32 (p_dual gsp) with Ok d => d | Fail _ => D end.
Definition sub1 : subsys := Eval vm_compute in match SsModel.subsystem D2 [4] with Ok t => t | Fail _ => mk_subsys (d_sys D) D [] [] [] [] [] [] end.
Lemma sub1_cols : forall s, s < 1 -> exists p v, vget (ss_pos sub1) s = Ok p /\ d_coroot (ss_par sub1) p = Ok v /\ is_vec v 3 (fun i => gA i s).
Proof.
  intros s Hs. assert (s = 0) as -> by lia. eexists. eexists. split; [vm_compute; reflexivity|]. split; [vm_compute; reflexivity|]. split; [reflexivity|].
  intros i Hi. do 3 (destruct i as [|i]; [vm_compute; reflexivity|]). lia.
Qed.
Lemma sub1_sized s : s < 1 -> (zsum 3 (fun i => Z.abs (gA i s)) * (2 * 4) < 2 ^ 31)%Z.
Proof. intros Hs. assert (s = 0) as -> by lia. vm_compute. reflexivity. Qed.
Lemma e2_sized : sized_by 4 (fst (e2 [1; 1; 0]%Z)) /\ sized_by 4 (fst (e2 [0; 0; 1]%Z)).
Proof. split; (split; [cbn; lia|]); intros x I; cbn in I; lia. Qed.
(** a valid element passes; so does one that is not valid, as the test is really weaker; a third one does not *)
Example C177_ex : root_datum i32 (p_dual gsp) = Ok D2 /\ SsModel.subsystem D2 [4] = Ok sub1 /\ gives (gt_valid_sub S2 sub1 (e2 [1; 1; 0]%Z)) (fun b => b = true) (fun e => e = Overflow) /\ gives (gt_valid_sub S2 sub1 (e2 [0; 0; 1]%Z)) (fun b => b = true <-> forall s, s < 1 -> even_apart (pairQ 3 (fun i => gA i s) (squareQ 3 gB gA h2 (q2 [0; 0; 1]%Z) [])) 0) (fun e => e = Overflow) /\ gt_valid_sub S2 sub1 (e2 [1; 1; 0]%Z) = Ok true /\ gt_valid_sub S2 sub1 (e2 [0; 0; 1]%Z) = Ok true /\ gt_valid S2 (e2 [0; 0; 1]%Z) true = Ok false /\ gt_valid_sub S2 sub1 (e2 [1; 0; 0]%Z) = Ok false.
Proof.
  split; [vm_compute; reflexivity|]. split; [vm_compute; reflexivity|]. split; [|split; [|repeat split; vm_compute; reflexivity]].
  - apply (C177_weaker 3 2 gB gA s2_C [0; 1] h2 S2 S2_global sub1 1 gA eq_refl eq_refl sub1_cols _ (q2 [1; 1; 0]%Z) [] 4%Z (fun s k => if k =? s then 1%Z else 0%Z)); [now apply s2_elt|apply e2_sized|reflexivity|exact sub1_sized| |exact s2_strong].
    intros s i Hs Hi. assert (s = 0) as -> by lia. do 3 (destruct i as [|i]; [vm_compute; reflexivity|]). lia.
  - apply (C177_sub 3 2 gB gA s2_C [0; 1] h2 S2 S2_global sub1 1 gA eq_refl eq_refl sub1_cols _ (q2 [0; 0; 1]%Z) [] 4%Z); [now apply s2_elt|apply e2_sized|reflexivity|exact sub1_sized].
Qed.

Print Assumptions C177_sub.
Print Assumptions C177_weaker.
Print Assumptions C177_parent_refuted.
