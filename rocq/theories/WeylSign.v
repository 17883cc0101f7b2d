(** Lengths and signs of roots *)

From Coq Require Import List Arith ZArith Lia Bool.
From Verif Require Import MatSpec MatLin RunModel WeylModel WeylSpec TwistSpec WeylTable WeylExchange WeylGroup.
Import ListNotations.
Open Scope nat_scope.

Lemma zsum_bump0 n i x y : i < n -> (zsum n (fun b => x b - (if (b =? i)%nat then y b else 0)) = zsum n x - y i)%Z.
Proof.
  intros Hi. rewrite (zsum_ext n _ (fun b => x b + (if (b =? i)%nat then - y b else 0))%Z) by (intros b _; destruct (b =? i); lia).
  rewrite zsum_add. rewrite (zsum_one n i (fun b => if (b =? i)%nat then (- y b)%Z else 0%Z)); [rewrite Nat.eqb_refl; lia|auto|].
  intros b _ N. destruct (Nat.eqb_spec b i); [lia|auto].
Qed.
Section Roots.
Variables (n : nat) (A : nat -> nat -> Z).
Hypothesis C : Cartan_like n A.
Notation "u ~ v" := (same n (coxeter A) u v) (at level 70).
Notation pair := (pairing n A).
Notation rr := (root_reflect n A).
Notation rw := (root_word n A).

Lemma rr_at i c j : rr i c j = (c j - (if (j =? i)%nat then pair c i else 0))%Z.
Proof. unfold root_reflect. destruct (j =? i); lia. Qed.
Lemma pair_ext c c' i : (forall j, j < n -> c j = c' j) -> pair c i = pair c' i.
Proof. intros H. apply zsum_ext. intros k Hk. now rewrite H. Qed.
Lemma pair_rr i c k : i < n -> pair (rr i c) k = reflect A i (pair c) k.
Proof.
  intros Hi. unfold pairing, reflect. rewrite (zsum_ext n _ (fun j => c j * A j k - (if (j =? i)%nat then pair c i * A j k else 0))%Z).
  - rewrite zsum_bump0 by auto. reflexivity.
  - intros j Hj. rewrite rr_at. destruct (j =? i); lia.
Qed.
Lemma rr_ext i c c' : i < n -> (forall j, j < n -> c j = c' j) -> forall j, j < n -> rr i c j = rr i c' j.
Proof. intros Hi H j Hj. rewrite !rr_at, (pair_ext c c') by auto. now rewrite H. Qed.
Lemma rw_ext u : over n u -> forall c c', (forall j, j < n -> c j = c' j) -> forall j, j < n -> rw u c j = rw u c' j.
Proof.
  induction u as [|s u IH]; intros O c c' H j Hj; [now apply H|]. apply over_cons in O. destruct O as [Hs O]. cbn [root_word fold_left].
  apply IH; auto. intros k Hk. now apply rr_ext.
Qed.
Lemma rw_cons s u c : rw (s :: u) c = rw u (rr s c).
Proof. reflexivity. Qed.
Lemma rw_app u v c : rw (u ++ v) c = rw v (rw u c).
Proof. unfold root_word. apply fold_left_app. Qed.
Lemma pair_rw u : over n u -> forall c k, pair (rw u c) k = reflect_word A u (pair c) k.
Proof.
  induction u as [|s u IH]; intros O c k; [auto|]. apply over_cons in O. destruct O as [Hs O]. rewrite rw_cons, IH, reflect_word_cons by auto.
  apply WeylCheck.reflect_word_ext. intros j. now apply pair_rr.
Qed.
Lemma rr_lin i a b c d j : rr i (fun k => a * c k + b * d k)%Z j = (a * rr i c j + b * rr i d j)%Z.
Proof.
  rewrite !rr_at. destruct (j =? i); [|lia]. assert (E : pair (fun k => a * c k + b * d k)%Z i = (a * pair c i + b * pair d i)%Z).
  { unfold pairing. rewrite <- !zsum_mul_l, <- zsum_add. apply zsum_ext. intros k _. ring. }
  rewrite E. ring.
Qed.
Lemma rw_lin u : over n u -> forall a b c d j, j < n -> rw u (fun k => a * c k + b * d k)%Z j = (a * rw u c j + b * rw u d j)%Z.
Proof.
  induction u as [|s u IH]; intros O a b c d j Hj; [auto|]. apply over_cons in O. destruct O as [Hs O]. rewrite !rw_cons, <- IH by auto.
  apply rw_ext; auto. intros k Hk. apply rr_lin.
Qed.
Lemma rr_square s c j : s < n -> rr s (rr s c) j = c j.
Proof.
  intros Hs. rewrite !rr_at. rewrite (pair_rr s c s Hs). unfold reflect. destruct C as [D _]. rewrite (D s Hs). destruct (j =? s); ring.
Qed.
Lemma rr_braid s t c j : s < n -> t < n -> s <> t -> rw (alt (coxeter A s t) s t) c j = rw (alt (coxeter A s t) t s) c j.
Proof.
  intros Hs Ht Hn. destruct C as [D F]. pose proof (F s t Hs Ht Hn) as P. unfold coxeter. pose proof (D s Hs) as Ds. pose proof (D t Ht) as Dt.
  unfold finite_pair in P. cbn in P.
  destruct P as [P|[P|[P|[P|[P|[P|[]]]]]]]; injection P as P1 P2; rewrite <- P1, <- P2; cbn [bond Z.mul Z.opp Pos.mul Pos.add alt root_word fold_left];
    rewrite !rr_at; repeat (rewrite !pair_rr by auto; unfold reflect); rewrite ?Ds, ?Dt, <- ?P1, <- ?P2; destruct (j =? s), (j =? t); ring.
Qed.
Theorem rw_same u v : u ~ v -> over n u -> forall c j, j < n -> rw u c j = rw v c j.
Proof.
  induction 1 as [u|u v H IH|u v w H1 IH1 H2 IH2|u u' v v' H1 IH1 H2 IH2|s Hs|s t Hs Ht Hn]; intros O c j Hj.
  - auto.
  - symmetry. apply IH; auto. now apply (same_over n _ _ _ H).
  - rewrite IH1 by auto. apply IH2; auto. now apply (same_over n _ _ _ H1).
  - apply over_app in O. destruct O as [O1 O2]. rewrite !rw_app. rewrite IH2 by auto. apply rw_ext; [now apply (same_over n _ _ _ H2)|intros k Hk; now apply IH1|auto].
  - now apply rr_square.
  - now apply rr_braid.
Qed.
Lemma rw_back u c j : over n u -> j < n -> rw (rev u) (rw u c) j = c j.
Proof.
  intros O Hj. rewrite <- rw_app. apply (rw_same (u ++ rev u) []); auto; [now apply same_inverse|apply over_app; split; [auto|now apply over_rev]].
Qed.

(** *** two generators *)
Lemma pair_two s t a b i : s < n -> t < n -> s <> t -> pair (fun k => a * simple_root s k + b * simple_root t k)%Z i = (a * A s i + b * A t i)%Z.
Proof.
  intros Hs Ht Hn. unfold pairing. rewrite (zsum_ext n _ (fun k => a * (simple_root s k * A k i) + b * (simple_root t k * A k i))%Z) by (intros; ring).
  rewrite zsum_add, !zsum_mul_l. unfold simple_root. rewrite (zsum_one n s), (zsum_one n t); auto.
  - rewrite !Nat.eqb_refl. ring.
  - intros k _ N. destruct (Nat.eqb_spec k t); [lia|ring].
  - intros k _ N. destruct (Nat.eqb_spec k s); [lia|ring].
Qed.
Definition two (s t : nat) (a b : Z) : nat -> Z := fun k => (a * simple_root s k + b * simple_root t k)%Z.
Lemma rr_two_1 s t a b j : s < n -> t < n -> s <> t -> rr s (two s t a b) j = two s t (- a - b * A t s)%Z b j.
Proof.
  intros Hs Ht Hn. rewrite rr_at. unfold two. rewrite pair_two by auto. destruct C as [D _]. rewrite (D s Hs). unfold simple_root.
  destruct (Nat.eqb_spec j s), (Nat.eqb_spec j t); lia.
Qed.
Lemma rr_two_2 s t a b j : s < n -> t < n -> s <> t -> rr t (two s t a b) j = two s t a (- b - a * A s t)%Z j.
Proof.
  intros Hs Ht Hn. rewrite rr_at. unfold two. rewrite pair_two by auto. destruct C as [D _]. rewrite (D t Ht). unfold simple_root.
  destruct (Nat.eqb_spec j s), (Nat.eqb_spec j t); lia.
Qed.
(** coefficients after the letters t, s, t, ... *)
Fixpoint swing (k : nat) (p q : Z) (a b : Z) : Z * Z := (* p = A s t, q = A t s; next letter is t *)
  match k with
  | O => (a, b)
  | S k => let '(b, a) := swing k q p (- b - a * p)%Z a in (a, b)
  end.
Lemma rw_swing k : forall s t a b j, s < n -> t < n -> s <> t -> j < n ->
  rw (alt k t s) (two s t a b) j = let '(x, y) := swing k (A s t) (A t s) a b in two s t x y j.
Proof.
  induction k as [|k IH]; intros s t a b j Hs Ht Hn Hj; [auto|]. cbn [alt]. rewrite rw_cons. cbn [swing].
  rewrite (rw_ext _ (over_alt n k s t Hs Ht) _ (two t s (- b - a * A s t)%Z a)); auto.
  - rewrite IH by auto. destruct (swing k (A t s) (A s t) (- b - a * A s t)%Z a) as [x y]. unfold two. ring.
  - intros i Hi. rewrite rr_two_2 by auto. unfold two. ring.
Qed.
Lemma swing_positive p q k : finite_pair p q -> k < bond (p * q)%Z -> let '(x, y) := swing k p q 1 0 in (0 <= x /\ 0 <= y)%Z.
Proof.
  intros P. unfold finite_pair in P. cbn in P.
  destruct P as [P|[P|[P|[P|[P|[P|[]]]]]]]; injection P as P1 P2; rewrite <- P1, <- P2; cbn [bond Z.mul Z.opp Pos.mul Pos.add]; intros L;
    repeat (destruct k as [|k]; [vm_compute; split; discriminate|]); lia.
Qed.

(** *** lengths *)
Variable ell : list nat -> nat.
Hypothesis ELL : forall u, over n u -> shortest n (coxeter A) u (ell u).
Notation E_same := (ell_same n (coxeter A) ell ELL).
Notation E_cons := (ell_cons n (coxeter A) ell ELL).

Lemma undo s u : s < n -> s :: s :: u ~ u.
Proof. intros Hs. apply (same_app_r n (coxeter A) u [s; s] []). now apply same_square. Qed.
(** removal of alternating letters from the left *)
Lemma strip N : forall s t u, s < n -> t < n -> over n u -> ell u <= N -> ell u < ell (s :: u) ->
  exists k v, over n v /\ u ~ alt k t s ++ v /\ ell u = k + ell v /\ ell v < ell (s :: v) /\ ell v < ell (t :: v) /\ (ell (t :: u) < ell u -> 0 < k).
Proof.
  induction N as [|N IH]; intros s t u Hs Ht O LN U.
  - exists 0, u. cbn [alt app]. repeat split; auto using same_refl; try lia.
    destruct (E_cons t u Ht O); lia.
  - destruct (E_cons t u Ht O) as [E|E].
    + exists 0, u. cbn [alt app]. repeat split; auto using same_refl; lia.
    + assert (O1 : over n (t :: u)) by now apply over_cons. assert (R : ell (t :: t :: u) = ell u) by (apply E_same; [apply over_cons; auto|now apply undo]).
      destruct (IH t s (t :: u) Ht Hs O1 ltac:(lia) ltac:(lia)) as (k & v & Ov & S1 & L & D1 & D2 & _).
      exists (S k), v. split; [auto|]. split; [|repeat split; auto; lia]. cbn [alt app]. apply (same_trans n _ _ (t :: t :: u)); [now apply same_sym, undo|]. now apply same_cons.
Qed.
Lemma cox_symm s t : coxeter A s t = coxeter A t s.
Proof. unfold coxeter. now rewrite Z.mul_comm. Qed.
Theorem sign_nonneg N : forall u s, s < n -> over n u -> ell u <= N -> ell u < ell (s :: u) -> forall j, j < n -> (0 <= rw u (simple_root s) j)%Z.
Proof.
  induction N as [|N IH]; intros u s Hs O LN U j Hj.
  - rewrite (rw_same u []); auto; [cbn; unfold simple_root; destruct (j =? s); lia|]. apply (ell_zero n _ ell ELL); auto. lia.
  - destruct (ell_word n _ ell ELL u O) as (x & Ox & Sx & Lx). destruct x as [|t x].
    { rewrite (rw_same u []); auto. cbn. unfold simple_root. destruct (j =? s); lia. }
    pose proof Ox as Ox'. apply over_cons in Ox'. destruct Ox' as [Ht Ox'].
    assert (DT : ell (t :: u) < ell u).
    { rewrite (E_same (t :: u) x); [|now apply over_cons|].
      - pose proof (ell_le n _ ell ELL x Ox'). cbn [length] in Lx. lia.
      - apply (same_trans n _ _ (t :: t :: x)); [now apply same_cons|now apply undo]. }
    assert (NE : s <> t) by (intros ->; lia).
    destruct (strip (ell u) s t u Hs Ht O (le_n _) U) as (k & v & Ov & S1 & L & D1 & D2 & K). specialize (K DT).
    assert (KM : k < coxeter A s t).
    { destruct (Nat.lt_ge_cases k (coxeter A s t)) as [|G]; [auto|exfalso].
      assert (AS : forall a b x y, exists z, alt (a + b) x y = alt a x y ++ z /\ length z = b /\ (x < n -> y < n -> over n z)).
      { induction a as [|a IHa]; intros b x0 y0.
        - exists (alt b x0 y0). split; [auto|]. split; [apply alt_length|]. intros. now apply over_alt.
        - destruct (IHa b y0 x0) as (z & Z1 & Z2 & Z3). exists z. cbn [Nat.add alt app]. rewrite Z1. auto. }
      destruct (AS (coxeter A s t) (k - coxeter A s t) t s) as (z & Z1 & Z2 & Z3). specialize (Z3 Ht Hs). replace (coxeter A s t + (k - coxeter A s t)) with k in Z1 by lia.
      assert (M0 : coxeter A s t <> 0).
      { destruct C as [_ F]. pose proof (F s t Hs Ht NE) as P. unfold coxeter. unfold finite_pair in P. cbn in P.
        destruct P as [P|[P|[P|[P|[P|[P|[]]]]]]]; injection P as P1 P2; rewrite <- P1, <- P2; cbn; lia. }
      destruct (coxeter A s t) as [|M'] eqn:EM; [lia|].
      assert (X : s :: u ~ alt M' t s ++ z ++ v).
      { apply (same_trans n _ _ (s :: alt k t s ++ v)); [now apply same_cons|]. rewrite Z1. rewrite <- app_assoc.
        apply (same_trans n _ _ (s :: alt (S M') s t ++ z ++ v)).
        - apply same_cons. apply same_app_r. pose proof (same_braid n (coxeter A) s t Hs Ht NE) as B. rewrite EM in B. apply same_sym. exact B.
        - cbn [alt app]. now apply undo. }
      rewrite (E_same (s :: u) _ ltac:(now apply over_cons) X) in U.
      pose proof (ell_app n _ ell ELL (alt M' t s ++ z) v ltac:(apply over_app; split; [now apply over_alt|auto]) Ov) as Q. rewrite <- app_assoc in Q.
      pose proof (ell_le n _ ell ELL (alt M' t s ++ z) ltac:(apply over_app; split; [now apply over_alt|auto])) as Q2. rewrite app_length, alt_length in Q2. lia. }
    rewrite (rw_same u _ S1) by auto. rewrite rw_app.
    destruct C as [_ F]. pose proof (swing_positive _ _ k (F s t Hs Ht NE) KM) as SW. pose proof (fun i Hi => rw_swing k s t 1 0 i Hs Ht NE Hi) as RS.
    destruct (swing k (A s t) (A t s) 1 0) as [x1 y1]. destruct SW as [X0 Y0].
    rewrite (rw_ext v Ov _ (two s t x1 y1)); [|intros i Hi; rewrite <- RS by auto|auto].
    + unfold two. rewrite rw_lin by auto. pose proof (IH v s Hs Ov ltac:(lia) D1 j Hj). pose proof (IH v t Ht Ov ltac:(lia) D2 j Hj). nia.
    + apply rw_ext; [now apply over_alt| |auto]. intros i' Hi'. unfold two. ring.
Qed.
Lemma root_nonzero u s : s < n -> over n u -> ~ (forall j, j < n -> rw u (simple_root s) j = 0%Z).
Proof.
  intros Hs O H. pose proof (rw_back u (simple_root s) s O Hs) as B. rewrite (rw_ext (rev u) (over_rev n u O) _ (fun k => 0 * 0 + 0 * 0)%Z) in B by (auto; intros; rewrite H; auto).
  rewrite (rw_lin (rev u) (over_rev n u O) 0 0 (fun _ => 0%Z) (fun _ => 0%Z)) in B by auto. unfold simple_root in B. rewrite Nat.eqb_refl in B. lia.
Qed.
Lemma positive_of c : (forall j, j < n -> (0 <= c j)%Z) -> ~ (forall j, j < n -> c j = 0%Z) -> positive n c.
Proof.
  intros P N. split; [auto|]. clear -P N. induction n as [|k IH]; [exfalso; apply N; lia|].
  destruct (Z.eq_dec (c k) 0) as [E|E].
  - destruct IH as (j & Hj & Pj); [intros j Hj; apply P; lia| |exists j; auto].
    intros H. apply N. intros j Hj. destruct (Nat.eq_dec j k) as [->|]; [auto|apply H; lia].
  - exists k. split; [lia|]. specialize (P k ltac:(lia)). lia.
Qed.
Theorem sign_positive u s : s < n -> over n u -> ell u < ell (s :: u) -> positive n (rw u (simple_root s)).
Proof. intros Hs O U. apply positive_of; [|now apply root_nonzero]. now apply (sign_nonneg (ell u) u s Hs O (le_n _) U). Qed.
Theorem sign_negative u s : s < n -> over n u -> ell (s :: u) < ell u -> negative n (rw u (simple_root s)).
Proof.
  intros Hs O U. assert (O1 : over n (s :: u)) by now apply over_cons.
  assert (P : positive n (rw (s :: u) (simple_root s))).
  { apply sign_positive; auto. rewrite (E_same (s :: s :: u) u); auto; [apply over_cons; auto|now apply undo]. }
  assert (Q : forall j, j < n -> rw (s :: u) (simple_root s) j = (- rw u (simple_root s) j)%Z).
  { intros j Hj. rewrite rw_cons. rewrite (rw_ext u O _ (fun k => (-1) * simple_root s k + 0 * simple_root s k)%Z).
    - rewrite rw_lin by auto. lia.
    - intros k Hk. rewrite rr_at. unfold pairing. rewrite (zsum_one n s); auto.
      + destruct C as [D _]. rewrite (D s Hs). unfold simple_root. rewrite Nat.eqb_refl. destruct (k =? s); lia.
      + intros i _ N. unfold simple_root. destruct (Nat.eqb_spec i s); lia.
    - auto. }
  destruct P as [P1 (j & Hj & P2)]. split.
  - intros i Hi. rewrite <- Q by auto. now apply P1.
  - exists j. split; [auto|]. now rewrite <- Q.
Qed.
Lemma not_both c : positive n c -> negative n c -> False.
Proof. intros [P1 (j & Hj & P2)] [N1 _]. specialize (N1 j Hj). lia. Qed.
Theorem descent_sign u s : s < n -> over n u -> (ell (s :: u) < ell u <-> negative n (rw u (simple_root s))).
Proof.
  intros Hs O. split; [now apply sign_negative|]. intros N. destruct (E_cons s u Hs O) as [E|E]; [|lia].
  exfalso. apply (not_both _ (sign_positive u s Hs O ltac:(lia)) N).
Qed.
(** a generator carried to a generator *)
Lemma carried u s t : s < n -> t < n -> over n u -> s :: u ~ u ++ [t] ->
  forall j, j < n -> rw u (simple_root s) j = ((if (ell (s :: u) <? ell u)%nat then -1 else 1) * simple_root t j)%Z.
Proof.
  intros Hs Ht O E. set (r := rw u (simple_root s)).
  assert (Q : forall j, j < n -> (- r j)%Z = rr t r j).
  { intros j Hj. pose proof (rw_same _ _ E ltac:(now apply over_cons) (simple_root s) j Hj) as X. rewrite rw_app, rw_cons in X. cbn [root_word fold_left] in X. fold r in X.
    rewrite <- X. rewrite (rw_ext u O _ (fun k => (-1) * simple_root s k + 0 * simple_root s k)%Z); auto.
    - rewrite rw_lin by auto. unfold r. lia.
    - intros k Hk. rewrite rr_at. unfold pairing. rewrite (zsum_one n s); auto.
      + destruct C as [D _]. rewrite (D s Hs). unfold simple_root. rewrite Nat.eqb_refl. destruct (k =? s); lia.
      + intros i _ N. unfold simple_root. destruct (Nat.eqb_spec i s); lia. }
  assert (SUP : forall j, j < n -> r j = (r t * simple_root t j)%Z).
  { intros j Hj. unfold simple_root. destruct (Nat.eqb_spec j t) as [->|N]; [lia|]. specialize (Q j Hj). rewrite rr_at in Q. destruct (Nat.eqb_spec j t); lia. }
  assert (ONE : (r t * rw (rev u) (simple_root t) s = 1)%Z).
  { pose proof (rw_back u (simple_root s) s O Hs) as B. fold r in B. rewrite (rw_ext (rev u) (over_rev n u O) _ (fun k => r t * simple_root t k + 0 * simple_root t k)%Z) in B.
    - rewrite rw_lin in B by (auto using over_rev). unfold simple_root at 3 in B. rewrite Nat.eqb_refl in B. lia.
    - intros k Hk. rewrite SUP by auto. lia.
    - auto. }
  apply Z.mul_eq_1 in ONE. intros j Hj. rewrite SUP by auto. f_equal. destruct (Nat.ltb_spec (ell (s :: u)) (ell u)) as [L|L].
  - destruct (sign_negative u s Hs O L) as [N _]. specialize (N t Ht). fold r in N. lia.
  - destruct (sign_positive u s Hs O ltac:(destruct (E_cons s u Hs O); lia)) as [N _]. specialize (N t Ht). fold r in N. lia.
Qed.
End Roots.
