(** Global Tits groups: the action of words on rational vectors *)

From Coq Require Import List Arith ZArith QArith Lia Lqa.
From Verif Require Import MatSpec MatLin WeylModel WeylSpec TwistSpec WeylGroup RatVecSpec YvSpec YvProofs YvAct GtSpec.
Import ListNotations.
Open Scope nat_scope.

Definition veq (r : nat) (p q : nat -> Q) : Prop := forall i, i < r -> (p i == q i)%Q.
Lemma veq_refl r p : veq r p p.
Proof. intros i _. reflexivity. Qed.
Lemma veq_sym r p q : veq r p q -> veq r q p.
Proof. intros H i Hi. symmetry. now apply H. Qed.
Lemma veq_trans r p q w : veq r p q -> veq r q w -> veq r p w.
Proof. intros H H' i Hi. rewrite (H i Hi). now apply H'. Qed.
Lemma pair_ext r y p q : veq r p q -> (pairQ r y p == pairQ r y q)%Q.
Proof. intros H. apply qsum_ext. intros i Hi. now rewrite (H i Hi). Qed.
Lemma pair_add r y p q : (pairQ r y (fun i => p i + q i) == pairQ r y p + pairQ r y q)%Q.
Proof. unfold pairQ. rewrite <- qsum_plus. apply qsum_ext. intros i _. ring. Qed.
Lemma pair_scale r y q c : (pairQ r y (fun i => c * q i) == c * pairQ r y q)%Q.
Proof. unfold pairQ. rewrite Qmult_comm, <- qsum_scale. apply qsum_ext. intros i _. ring. Qed.
Lemma pair_int r y (x : nat -> Z) : (pairQ r y (fun i => inject_Z (x i)) == inject_Z (zsum r (fun i => y i * x i)%Z))%Q.
Proof. unfold pairQ. rewrite <- qsum_zsum. apply qsum_ext. intros i _. now rewrite inject_Z_mult. Qed.
Lemma actQ_ext r g p q : veq r p q -> veq r (actQ r g p) (actQ r g q).
Proof. intros H i _. apply (pair_ext r (fun j => g i j)). auto. Qed.
Lemma actQ_add r g p q : veq r (actQ r g (fun i => p i + q i)%Q) (fun i => actQ r g p i + actQ r g q i)%Q.
Proof. intros i _. apply (pair_add r (fun j => g i j)). Qed.
Lemma actQ_scale r g q c : veq r (actQ r g (fun i => c * q i)%Q) (fun i => c * actQ r g q i)%Q.
Proof. intros i _. apply (pair_scale r (fun j => g i j)). Qed.

Section Math.
Variables (r n : nat) (A B C : nat -> nat -> Z).
Hypothesis CA : Cartan_like n C.
Hypothesis PR : forall s t, s < n -> t < n -> zsum r (fun k => B k s * A k t)%Z = C s t.
Notation ev := (rootQ r B).
Notation refl := (reflQ r A B).
Notation act := (wordQ r A B).
Notation "u ~ v" := (same n (coxeter C) u v) (at level 70).
Notation vec s := (fun k => inject_Z (A k s)).

Lemma ev_ext s p q : veq r p q -> (ev s p == ev s q)%Q.
Proof. apply pair_ext. Qed.
Lemma ev_vec s t : s < n -> t < n -> (ev s (vec t) == inject_Z (C s t))%Q.
Proof. intros Hs Ht. unfold rootQ. rewrite pair_int, PR by auto. reflexivity. Qed.
Lemma ev_add s p q : (ev s (fun i => p i + q i) == ev s p + ev s q)%Q.
Proof. apply pair_add. Qed.
Lemma ev_shift s t c q : s < n -> t < n -> (ev s (fun i => q i + c * inject_Z (A i t)) == ev s q + c * inject_Z (C s t))%Q.
Proof. intros Hs Ht. rewrite ev_add. unfold rootQ at 2. rewrite (pair_scale r (fun j => B j s) (fun i => inject_Z (A i t)) c). fold (ev s (vec t)). rewrite ev_vec by auto. reflexivity. Qed.
Lemma refl_shift s q : veq r (refl s q) (fun i => q i + (- ev s q) * inject_Z (A i s))%Q.
Proof. intros i _. unfold reflQ. ring. Qed.
Lemma ev_refl s t q : s < n -> t < n -> (ev s (refl t q) == ev s q - ev t q * inject_Z (C s t))%Q.
Proof. intros Hs Ht. rewrite (ev_ext s _ _ (refl_shift t q)), ev_shift by auto. ring. Qed.
Lemma refl_ext s p q : veq r p q -> veq r (refl s p) (refl s q).
Proof. intros H i Hi. unfold reflQ. now rewrite (H i Hi), (ev_ext s _ _ H). Qed.
Lemma refl_square s q : s < n -> veq r (refl s (refl s q)) q.
Proof. intros Hs i Hi. unfold reflQ at 1. rewrite (ev_refl s s q Hs Hs), (proj1 CA s Hs). unfold reflQ. change (inject_Z 2) with 2%Q. ring. Qed.
Lemma refl_add s p q : veq r (refl s (fun i => p i + q i)%Q) (fun i => refl s p i + refl s q i)%Q.
Proof. intros i Hi. unfold reflQ. rewrite ev_add. ring. Qed.
Lemma refl_scale s q c : veq r (refl s (fun i => c * q i)%Q) (fun i => c * refl s q i)%Q.
Proof. intros i Hi. unfold reflQ. unfold rootQ. rewrite pair_scale. ring. Qed.
Lemma refl_vec s : s < n -> veq r (refl s (vec s)) (fun i => - inject_Z (A i s))%Q.
Proof. intros Hs i Hi. unfold reflQ. rewrite ev_vec, (proj1 CA s Hs) by auto. change (inject_Z 2) with 2%Q. ring. Qed.

Lemma act_ext u p q : veq r p q -> veq r (act u p) (act u q).
Proof. intros H. induction u as [|s u IH]; [exact H|]. cbn [wordQ fold_right]. now apply refl_ext. Qed.
Lemma act_app u v q : act (u ++ v) q = act u (act v q).
Proof. unfold wordQ. apply fold_right_app. Qed.
Lemma act_cons s u q : act (s :: u) q = refl s (act u q).
Proof. reflexivity. Qed.
Lemma act_add u p q : veq r (act u (fun i => p i + q i)%Q) (fun i => act u p i + act u q i)%Q.
Proof.
  induction u as [|s u IH]; [apply veq_refl|]. rewrite !act_cons. eapply veq_trans; [apply refl_ext, IH|]. apply refl_add.
Qed.
Lemma act_scale u q c : veq r (act u (fun i => c * q i)%Q) (fun i => c * act u q i)%Q.
Proof. induction u as [|s u IH]; [apply veq_refl|]. rewrite !act_cons. eapply veq_trans; [apply refl_ext, IH|]. apply refl_scale. Qed.

(** *** the braid relations *)
Definition both (s t : nat) (q : nat -> Q) (c : Q * Q) : nat -> Q := fun k => (q k + fst c * inject_Z (A k s) + snd c * inject_Z (A k t))%Q.
Definition step (x y p p' : Q) (b : bool) (c : Q * Q) : Q * Q :=
  if b then (- fst c - x - snd c * p, snd c)%Q else (fst c, - snd c - y - fst c * p')%Q.
Definition coefs (x y p p' : Q) (w : list bool) : Q * Q := fold_right (step x y p p') (0, 0)%Q w.
Lemma both_step s t q c b : s < n -> t < n -> s <> t ->
  veq r (refl (if b : bool then s else t) (both s t q c)) (both s t q (step (ev s q) (ev t q) (inject_Z (C s t)) (inject_Z (C t s)) b c)).
Proof.
  intros Hs Ht Hn i Hi. assert (E : forall x, x < n -> (ev x (both s t q c) == ev x q + fst c * inject_Z (C x s) + snd c * inject_Z (C x t))%Q).
  { intros x Hx. unfold both. rewrite (ev_shift x t (snd c) (fun k => q k + fst c * inject_Z (A k s))%Q Hx Ht), ev_shift by auto. reflexivity. }
  unfold reflQ. destruct b; rewrite E by auto; [rewrite (proj1 CA s Hs)|rewrite (proj1 CA t Ht)]; unfold both, step; cbn [fst snd]; change (inject_Z 2) with 2%Q; ring.
Qed.
Lemma both_act s t q w : s < n -> t < n -> s <> t ->
  veq r (act (map (fun b : bool => if b then s else t) w) q) (both s t q (coefs (ev s q) (ev t q) (inject_Z (C s t)) (inject_Z (C t s)) w)).
Proof.
  intros Hs Ht Hn. induction w as [|b w IH].
  - intros i Hi. unfold both. cbn [map wordQ fold_right coefs fst snd]. ring.
  - cbn [map coefs fold_right]. rewrite act_cons. eapply veq_trans; [apply refl_ext, IH|]. apply both_step; auto.
Qed.
Lemma both_eq s t q c d : (fst c == fst d)%Q -> (snd c == snd d)%Q -> veq r (both s t q c) (both s t q d).
Proof. intros H1 H2 i Hi. unfold both. now rewrite H1, H2. Qed.
Lemma act_braid s t q : s < n -> t < n -> s <> t -> veq r (act (alt (coxeter C s t) s t) q) (act (alt (coxeter C s t) t s) q).
Proof.
  intros Hs Ht Hn. pose proof (proj2 CA s t Hs Ht Hn) as P. pose proof (both_act s t q) as K. unfold coxeter. unfold finite_pair in P. cbn in P.
  destruct P as [P|[P|[P|[P|[P|[P|[]]]]]]]; injection P as P1 P2; rewrite <- P1, <- P2 in *; cbn [bond Z.mul Z.opp Pos.mul Pos.add alt];
    [pose proof (K [true; false] Hs Ht Hn) as K1; pose proof (K [false; true] Hs Ht Hn) as K2
    |pose proof (K [true; false; true] Hs Ht Hn) as K1; pose proof (K [false; true; false] Hs Ht Hn) as K2
    |pose proof (K [true; false; true; false] Hs Ht Hn) as K1; pose proof (K [false; true; false; true] Hs Ht Hn) as K2
    |pose proof (K [true; false; true; false] Hs Ht Hn) as K1; pose proof (K [false; true; false; true] Hs Ht Hn) as K2
    |pose proof (K [true; false; true; false; true; false] Hs Ht Hn) as K1; pose proof (K [false; true; false; true; false; true] Hs Ht Hn) as K2
    |pose proof (K [true; false; true; false; true; false] Hs Ht Hn) as K1; pose proof (K [false; true; false; true; false; true] Hs Ht Hn) as K2];
    (eapply veq_trans; [exact K1|]; eapply veq_trans; [|apply veq_sym; exact K2]; apply both_eq; unfold coefs, step; cbn [fold_right fst snd];
     try change (inject_Z 0) with 0%Q; try change (inject_Z (-1)) with (- (1))%Q; try change (inject_Z (-2)) with (- (2))%Q; try change (inject_Z (-3)) with (- (3))%Q; ring).
Qed.
Lemma act_same u v : u ~ v -> forall q, veq r (act u q) (act v q).
Proof.
  induction 1 as [u|u v H IH|u v w H1 IH1 H2 IH2|u u' v v' H1 IH1 H2 IH2|s Hs|s t Hs Ht Hn]; intros q.
  - apply veq_refl.
  - apply veq_sym, IH.
  - eapply veq_trans; [apply IH1|apply IH2].
  - rewrite !act_app. eapply veq_trans; [apply act_ext, IH2|]. apply IH1.
  - apply (refl_square s q Hs).
  - now apply act_braid.
Qed.

(** *** evenness *)
Lemma even_add a b c d : even_apart a b -> even_apart c d -> even_apart (a + c) (b + d).
Proof. intros (x & Hx) (y & Hy). exists (x + y)%Z. rewrite Z.mul_add_distr_l, inject_Z_plus, <- Hx, <- Hy. ring. Qed.
Lemma even_scale a b z : even_apart a b -> even_apart (a * inject_Z z) (b * inject_Z z).
Proof. intros (x & Hx). exists (x * z)%Z. rewrite Z.mul_assoc, inject_Z_mult, <- Hx. ring. Qed.
Lemma even_eq a b c d : (a == c)%Q -> (b == d)%Q -> even_apart a b -> even_apart c d.
Proof. intros E1 E2 (x & Hx). exists x. now rewrite <- E1, <- E2. Qed.
Lemma even_opp a b : even_apart a b -> even_apart (- a) (- b).
Proof. intros (x & Hx). exists (- x)%Z. replace (2 * - x)%Z with (- (2 * x))%Z by ring. rewrite inject_Z_opp, <- Hx. ring. Qed.
Lemma even_two z : even_apart (inject_Z (2 * z)) 0.
Proof. exists z. ring. Qed.
Lemma diff_refl q : is_diff r q q.
Proof. intros i _. apply even_refl. reflexivity. Qed.
Lemma veq_diff p q : veq r p q -> is_diff r p q.
Proof. intros H i Hi. apply even_refl. now apply H. Qed.
Lemma diff_sym p q : is_diff r p q -> is_diff r q p.
Proof. intros H i Hi. now apply even_sym, H. Qed.
Lemma diff_trans p q w : is_diff r p q -> is_diff r q w -> is_diff r p w.
Proof. intros H H' i Hi. apply (even_trans _ (q i)); auto. Qed.
Lemma diff_ev s p q : is_diff r p q -> even_apart (ev s p) (ev s q).
Proof. intros H. apply pair_even. exact H. Qed.
Lemma diff_refl_s s p q : is_diff r p q -> is_diff r (refl s p) (refl s q).
Proof.
  intros H i Hi. unfold reflQ. apply (even_eq (p i + - (ev s p * inject_Z (A i s))) (q i + - (ev s q * inject_Z (A i s)))); [ring|ring|].
  apply even_add; [now apply H|]. apply even_opp, even_scale, diff_ev, H.
Qed.
Lemma diff_act u p q : is_diff r p q -> is_diff r (act u p) (act u q).
Proof. intros H. induction u as [|s u IH]; [exact H|]. rewrite !act_cons. now apply diff_refl_s. Qed.
Lemma diff_mx g p q : is_diff r p q -> is_diff r (actQ r g p) (actQ r g q).
Proof. intros H i Hi. apply (pair_even r (fun j => g i j)). exact H. Qed.
Lemma diff_add p p' q q' : is_diff r p q -> is_diff r p' q' -> is_diff r (fun i => p i + p' i)%Q (fun i => q i + q' i)%Q.
Proof. intros H H' i Hi. apply even_add; auto. Qed.
Lemma central_diff p q : is_diff r p q -> centralQ r n B p -> centralQ r n B q.
Proof. intros H P s Hs. eapply even_trans; [apply even_sym, diff_ev, H|]. now apply P. Qed.
Lemma central_refl s q : s < n -> centralQ r n B q -> centralQ r n B (refl s q).
Proof.
  intros Hs P t Ht. eapply even_eq; [symmetry; apply (ev_refl t s q Ht Hs)|reflexivity|]. apply (even_eq (ev t q + - (ev s q * inject_Z (C t s))) (0 + - (0 * inject_Z (C t s)))); [ring|ring|].
  apply even_add; [now apply P|]. apply even_opp, even_scale. now apply P.
Qed.
Lemma central_add p q : centralQ r n B p -> centralQ r n B q -> centralQ r n B (fun i => p i + q i)%Q.
Proof. intros P P' s Hs. eapply even_eq; [symmetry; apply ev_add|apply Qplus_0_r|]. apply even_add; auto. Qed.
Lemma central_vec s z : s < n -> Z.even z = true -> centralQ r n B (fun i => inject_Z z * inject_Z (A i s))%Q.
Proof.
  intros Hs E t Ht. apply Z.even_spec in E. destruct E as (k & ->). eapply even_eq; [symmetry; apply (pair_scale r _ (vec s))|reflexivity|]. fold (ev t (vec s)).
  apply (even_eq (inject_Z (2 * (k * C t s))) 0); [|reflexivity|apply even_two]. rewrite (ev_vec t s) by auto. rewrite <- inject_Z_mult, Z.mul_assoc. reflexivity.
Qed.
End Math.
