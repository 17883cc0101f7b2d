(** Gradings of global Tits groups at roots: the loop follows the conjugation of the root to a simple one; values of roots. *)

From Coq Require Import List Arith ZArith QArith Qfield Bool Lia.
From Verif Require Import RunModel RunProofs VecModel MatSpec MatRing MatLin WeylModel WeylSpec WeylExchange WeylOps TwistSpec RootModel RootSpec RootMath RsfModel RatVecModel RatVecSpec YvSpec GtModel GtSpec GtMath TnProofs TcSpec TcProofs GtTheta YvAct GcModel.
Import ListNotations.
Open Scope nat_scope.

Section Loop.
Variables (G : global) (rs : rootsys).
Notation c1 := (fun '(a, w) => run i <- find_descent rs a; Ok (negb (a =? pos_nr (num_pos rs) i))).
Notation b1 := (fun '(a, w) => run i <- find_descent rs a; run b <- simple_reflected rs i a; Ok (b, w ++ [i])).
Notation c2 := (fun '(alpha, a) => run s <- find_descent rs alpha; Ok (negb (alpha =? pos_nr (num_pos rs) s))).
Notation b2 := (fun '(alpha, a) => run s <- find_descent rs alpha; run (b, _) <- gt_cross G s a; run beta <- simple_reflected rs s alpha; Ok (beta, b)).
Lemma follow k : forall a w0 a' v t d, loop k c1 b1 (a, w0) = Ok (a', w0 ++ v) -> loop k c2 b2 (a, t) = run (T, _) <- each_comp v (add_cross G) (t, d); Ok (a', T).
Proof.
  induction k as [|k IH]; intros a w0 a' v t d E; cbn [loop] in E |- *; destruct (find_descent rs a) as [i|e] eqn:F; try discriminate; cbn [bind] in E |- *; destruct (negb _).
  - discriminate.
  - injection E as <- E. rewrite <- (app_nil_r w0) in E at 1. apply app_inv_head in E. subst v. reflexivity.
  - cbn [bind] in E |- *. destruct (simple_reflected rs i a) as [b|e] eqn:S1; [|discriminate]. cbn [bind] in E. destruct (prefix rs _ _ _ _ _ E) as (x & Ex). rewrite <- app_assoc in Ex. apply app_inv_head in Ex. subst v.
    change ([i] ++ x) with (i :: x) in *. rewrite each_comp_cons. unfold add_cross at 1. destruct (gt_cross G i t) as [[t1 e1]|e]; cbn [bind]; [|reflexivity].
    apply (IH b (w0 ++ [i]) a' x t1 (d + e1)%Z). rewrite <- app_assoc. exact E.
  - injection E as <- E. rewrite <- (app_nil_r w0) in E at 1. apply app_inv_head in E. subst v. reflexivity.
Qed.
Lemma compact_follows a alpha i w : conjugate_to_simple rs alpha = Ok (i, w) -> gt_compact_root G rs alpha a = run (b, _) <- gt_cross_right G a w; gt_compact G i b.
Proof.
  unfold conjugate_to_simple, gt_compact_root, gt_cross_right. intros E. destruct (loop (num_roots rs) c1 b1 (make_positive rs alpha, [])) as [[a' w']|e] eqn:L; [|discriminate]. cbn [bind] in E.
  destruct (find_descent rs a') as [j|e] eqn:F; [|discriminate]. cbn [bind] in E. injection E as -> ->.
  rewrite (follow _ _ [] a' w a 0%Z L). destruct (each_comp w (add_cross G) (a, 0%Z)) as [[b d]|e]; cbn [bind]; [|reflexivity]. now rewrite F.
Qed.
End Loop.

(** * Values of roots *)
Section Values.
Variables (r n : nat) (A B C : nat -> nat -> Z).
Hypothesis PR : forall s t, s < n -> t < n -> zsum r (fun k => B k s * A k t)%Z = C s t.
(** value of the combination of the simple roots with coefficients [y] *)
Notation value y q := (qsum n (fun k => inject_Z (co y k) * rootQ r B k q)%Q).
Lemma pick m t (h : nat -> Q) : (qsum m (fun k => if k =? t then h k else 0%Q) == if t <? m then h t else 0%Q)%Q.
Proof.
  induction m as [|m IH]; [rewrite qsum_0; reflexivity|]. rewrite qsum_S, IH. destruct (Nat.eqb_spec m t) as [->|Ne].
  - rewrite (proj2 (Nat.ltb_ge t t)), (proj2 (Nat.ltb_lt t (S t))) by lia. ring.
  - destruct (Nat.ltb_spec t m), (Nat.ltb_spec t (S m)); try lia; ring.
Qed.
Lemma value_bump y t z q : t < n -> length y = n -> (value (bump y t z) q == value y q + inject_Z z * rootQ r B t q)%Q.
Proof.
  intros Ht L. rewrite (qsum_ext n _ (fun k => inject_Z (co y k) * rootQ r B k q + (if k =? t then inject_Z z * rootQ r B k q else 0))%Q).
  - rewrite qsum_plus, pick, (proj2 (Nat.ltb_lt t n) Ht). reflexivity.
  - intros k Hk. rewrite co_bump by lia. destruct (k =? t); [rewrite inject_Z_plus|]; ring.
Qed.
Lemma value_reflect y t q : t < n -> length y = n -> (value y (reflQ r A B t q) == value (sreflect n C t y) q)%Q.
Proof.
  intros Ht L. unfold sreflect. rewrite value_bump by assumption.
  rewrite (qsum_ext n _ (fun k => inject_Z (co y k) * rootQ r B k q + inject_Z (co y k * C k t) * (- rootQ r B t q))%Q).
  - rewrite qsum_plus, qsum_scale, qsum_zsum. unfold pairing. rewrite inject_Z_opp. ring.
  - intros k Hk. rewrite (ev_refl r n A B C PR k t q Hk Ht), inject_Z_mult. ring.
Qed.
Lemma value_word v : forall y q, over n v -> length y = n -> (value y (wordQ r A B v q) == value (word_act n C (rev v) y) q)%Q.
Proof.
  induction v as [|s v IH]; intros y q O L; [reflexivity|]. apply over_cons in O. destruct O as [Hs O]. change (wordQ r A B (s :: v) q) with (reflQ r A B s (wordQ r A B v q)).
  rewrite value_reflect by assumption. rewrite IH; [|exact O|now rewrite sr_length]. cbn [rev]. unfold word_act. rewrite fold_right_app. reflexivity.
Qed.
Lemma value_basis i q : i < n -> (value (basis n i) q == rootQ r B i q)%Q.
Proof.
  intros Hi. rewrite (qsum_ext n _ (fun k => if k =? i then rootQ r B k q else 0)%Q).
  - rewrite pick, (proj2 (Nat.ltb_lt i n) Hi). reflexivity.
  - intros k Hk. rewrite co_basis by exact Hi. destruct (k =? i); [change (inject_Z 1) with 1%Q|change (inject_Z 0) with 0%Q]; ring.
Qed.
End Values.

(** * Paths of complex reflections *)
Lemma path_snoc n C f s : forall w u, complex_path n C f (w ++ [s]) u -> complex_path n C f w u /\ complex_for n C f s (rev w ++ u ++ rev (relabel f (rev w))).
Proof.
  induction w as [|t w IH]; intros u H; cbn [app complex_path rev] in *.
  - cbn [relabel map rev app]. rewrite app_nil_r. tauto.
  - destruct H as [H1 H2]. destruct (IH _ H2) as [H3 H4]. split; [tauto|]. unfold conjugated in H4. unfold relabel in *. rewrite map_app, rev_app_distr. cbn [map rev app] in *. rewrite <- !app_assoc in *. cbn [app] in *. exact H4.
Qed.
