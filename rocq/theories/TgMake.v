(** Tits groups: construction *)

From Coq Require Import List Arith NArith ZArith Lia Bool.
From Verif Require Import VecModel VecProofs RunModel RunProofs MatModel MatSpec MatLin MatProofs MatOps F2Model F2Spec F2Basics F2Proofs F2Solve F2Ops RootSpec RootMath DatModel DatSpec DatMath DatProofs DatOps DatProps DfSpec
  WeylModel WeylSpec WeylGroup WeylExt TwistSpec ToriModel ToriSpec ToriProofs ToriTorus ToriLat TgModel TgSpec TgSem TgRuns.
Import ListNotations.
Open Scope nat_scope.

Lemma scalar_mod2 r a b x y : mod2 r a x -> mod2 r b y -> scalar r x y = Z.odd (zsum r (fun k => a k * b k)%Z).
Proof. intros [_ Hx] [_ Hy]. rewrite odd_zsum. apply sum2_ext. intros k Hk. now rewrite Z.odd_mul, Hx, Hy. Qed.
Lemma mod2_eq r a b x y : mod2 r a x -> mod2 r b y -> (forall k, k < r -> a k = b k) -> x = y.
Proof. intros [Wx Hx] [Wy Hy] E. apply (within_ext r); auto. intros i Hi. now rewrite Hx, Hy, E. Qed.
Lemma mod2_lift r x : within r x -> mod2 r (fun k => Z.b2z (coord x k)) x.
Proof. intros B. split; [auto|]. intros i _. symmetry. apply odd_b2z. Qed.

(** integral roots, coroots and involution *)
Section Integral.
Variables (dim n : nat) (A : nat -> nat -> Z) (r : nat) (G : tits_group) (al be : nat -> nat -> Z).
Hypothesis HW : weyl_of n A (tg_W G).
Hypothesis HR : tg_rank G = r.
Hypothesis HD : r <= dim.
Hypothesis L1 : length (tg_root G) = n.
Hypothesis L2 : length (tg_coroot G) = n.
Hypothesis M1 : forall s, s < n -> sized r (nth s (tg_root G) (bv_zero 0)) /\ mod2 r (al s) (root2 G s).
Hypothesis M2 : forall s, s < n -> sized r (nth s (tg_coroot G) (bv_zero 0)) /\ mod2 r (be s) (coroot2 G s).
Hypothesis P : forall s t, s < n -> t < n -> zsum r (fun k => al s k * be t k)%Z = A s t.
Lemma integral_tits : tits_of dim n A r G.
Proof.
  constructor; auto.
  - split; [auto|]. apply Forall_forall. intros x I. destruct (In_nth _ _ (bv_zero 0) I) as (i & Hi & <-). apply M1. lia.
  - split; [auto|]. apply Forall_forall. intros x I. destruct (In_nth _ _ (bv_zero 0) I) as (i & Hi & <-). apply M2. lia.
  - intros s t Hs Ht. rewrite (scalar_mod2 r (al s) (be t)); [now rewrite P|apply M1; auto|apply M2; auto].
Qed.
Variable m : nat -> nat -> Z.
Notation f := (fun s => nth s (tg_twist G) 0).
Hypothesis TW : twist_of n A (tg_twist G).
Hypothesis MI : is_matrix r r (cols (tg_inv G)) /\ rows (tg_inv G) = r.
Hypothesis ME : forall i j, i < r -> j < r -> F2Spec.entry (cols (tg_inv G)) i j = Z.odd (m i j).
Hypothesis m_be : forall s i, s < n -> i < r -> fapply r m (be s) i = be (f s) i.
Hypothesis m_al : forall s x, s < n -> zsum r (fun k => al (f s) k * fapply r m x k)%Z = zsum r (fun k => al s k * x k)%Z.
Hypothesis m_inv : forall x i, i < r -> fapply r m (fapply r m x) i = x i.
Lemma integral_twist : twist_ok dim n A r G.
Proof.
  constructor; auto.
  - intros x B. pose proof (mod2_lift r x B) as X. eapply mod2_eq; [apply (image_mod2 r r _ m), (image_mod2 r r _ m); [apply MI|exact ME|apply MI|exact ME|exact X]|exact X|]. intros k Hk. now rewrite m_inv.
  - intros s Hs. eapply mod2_eq; [apply (image_mod2 r r _ m); [apply MI|exact ME|apply M2; auto]|apply M2|]. 
    + destruct TW as (_ & F & _). now apply F.
    + intros k Hk. now apply m_be.
  - intros s x Hs B. pose proof (mod2_lift r x B) as X. destruct TW as (_ & F & _). 
    rewrite (scalar_mod2 r (al (f s)) (fapply r m (fun k => Z.b2z (coord x k)))); [|apply M1, F, Hs|apply (image_mod2 r r _ m); [apply MI|exact ME|exact X]].
    rewrite m_al by auto. symmetry. apply scalar_mod2; [apply M1; auto|exact X].
Qed.
End Integral.

Lemma mod2_run dim r v : length v = r -> r <= dim -> gives (bv_mod2 dim v) (fun w => sized r w /\ mod2 r (co v) (data w)) (fun _ => False).
Proof.
  intros L H. eapply gives_mono; [apply bv_mod2_ok; lia|]. intros w [B E]. rewrite L in *. split; [auto|]. split; [apply B|]. intros i Hi. now apply E.
Qed.
Lemma nth_snoc {T} (l : list T) x i k (dflt : T) : length l = k -> i < S k -> nth i (l ++ [x]) dflt = if i =? k then x else nth i l dflt.
Proof. intros L H. destruct (Nat.eqb_spec i k) as [->|NE]; [rewrite app_nth2 by lia; now rewrite L, Nat.sub_diag|]. rewrite app_nth1 by lia. auto. Qed.

(** *** of a root datum *)
Theorem make_tits_run dim fits r n A B p d W f dl g : datum_of fits r n A B p d -> weyl_of n (pairings r A B) W -> r <= dim ->
  twist_of n (pairings r A B) f -> is_mx dl r r g -> permutes_simple r n A B g (fun s => nth s f 0) -> involutive r g ->
  gives (make_tits dim d W f dl) (fun G => tg_W G = W /\ tg_twist G = f /\ tits_of dim n (pairings r A B) r G /\ twist_ok dim n (pairings r A B) r G /\
    (forall s, s < n -> mod2 r (co (fcol r A s)) (root2 G s) /\ mod2 r (co (fcol r B s)) (coroot2 G s)) /\
    forall x v, mod2 r x v -> mod2 r (fapply r (fun i j => g j i) x) (image_of (cols (tg_inv G)) v)) (fun _ => False).
Proof.
  intros Hd HW HD TW HM PS IV. apply datum_of_ok in Hd. unfold make_tits. eapply gives_bind; [eapply transposed_ok; exact HM|]. intros mt Hmt.
  eapply gives_bind; [apply (mat_mod2_ok dim mt r r _ Hmt HD)|]. intros inv (I1 & I2 & I3). 
  assert (SS : d_ssrank d = n) by (apply (k_ss r n A B p d Hd)). rewrite SS.
  eapply gives_bind.
  { apply (gives_upto0 (fun k '(rs, cs) => length rs = k /\ length cs = k /\ forall s, s < k -> (sized r (nth s rs (bv_zero 0)) /\ mod2 r (co (fcol r A s)) (data (nth s rs (bv_zero 0)))) /\
      (sized r (nth s cs (bv_zero 0)) /\ mod2 r (co (fcol r B s)) (data (nth s cs (bv_zero 0)))))).
    - split; [auto|]. split; [auto|]. intros s Hs. lia.
    - intros i [rs cs] Hi (La & Lb & F). destruct (d_simple_run r n A B p d Hd i Hi) as [E1 E2]. rewrite E1. cbn [bind].
      eapply gives_bind; [apply (mod2_run dim r); [apply fcol_length|auto]|]. intros x Hx. rewrite E2. cbn [bind].
      eapply gives_bind; [apply (mod2_run dim r); [apply fcol_length|auto]|]. intros y Hy. cbn [gives]. rewrite !app_length. cbn [length]. split; [lia|]. split; [lia|].
      intros s Hs. rewrite !(nth_snoc _ _ s i) by auto. destruct (Nat.eqb_spec s i) as [->|NE]; [auto|]. apply F. lia.
    - intros st H. exact H. }
  intros [rs cs] (La & Lb & F). cbn [gives]. rewrite (k_rank r n A B p d Hd). set (G := mk_tits W f r rs cs inv).
  assert (FL : forall s, s < n -> nth s f 0 < n /\ nth (nth s f 0) f 0 = s) by (destruct TW as (_ & X & _); exact X).
  assert (F1 : forall s, s < n -> sized r (nth s (tg_root G) (bv_zero 0)) /\ mod2 r (co (fcol r A s)) (root2 G s)) by (intros s Hs; apply F; auto).
  assert (F2 : forall s, s < n -> sized r (nth s (tg_coroot G) (bv_zero 0)) /\ mod2 r (co (fcol r B s)) (coroot2 G s)) by (intros s Hs; apply F; auto).
  split; [auto|]. split; [auto|]. split; [|split; [|split]].
  - apply (integral_tits dim n _ r G (fun s => co (fcol r A s)) (fun s => co (fcol r B s))); auto.
  - apply (integral_twist dim n _ r G (fun s => co (fcol r A s)) (fun s => co (fcol r B s)) F1 F2 (fun i j => g j i)); auto.
    + intros s i Hs Hi. destruct (FL s Hs) as [Fs Fss]. destruct (PS (nth s f 0) Fs) as (_ & _ & Q). specialize (Q (basis r i) (basis_length r i)). cbn [tg_twist G]. rewrite Fss in Q.
      unfold image_by in Q. rewrite comb_basis in Q by (auto using fcol_length). unfold fapply.
      assert (E : dot r (basis r i) (fcol r B (nth s f 0)) = co (fcol r B (nth s f 0)) i) by (rewrite dot_comm; apply dot_basis; auto using fcol_length).
      rewrite E in Q. rewrite <- Q. unfold dot. apply zsum_ext. intros j Hj. now rewrite (co_fcol r g).
    + intros s x Hs. destruct (FL s Hs) as [Fs Fss]. destruct (PS (nth s f 0) Fs) as (_ & Q & _). cbn [tg_twist G]. rewrite Fss in Q. rewrite <- Q. unfold image_by, fapply.
      rewrite (zsum_ext r (fun k => co (DatSpec.comb r r (fcol r g) (fcol r A (nth s f 0%nat))) k * x k)%Z (fun k => zsum r (fun i => co (fcol r A (nth s f 0%nat)) i * g k i * x k)%Z)).
      * rewrite RootForm.zsum_swap. apply zsum_ext. intros k Hk. rewrite <- zsum_mul_l. apply zsum_ext. intros j Hj. ring.
      * intros k Hk. rewrite co_comb by auto. rewrite <- zsum_mul_r. apply zsum_ext. intros j Hj. now rewrite (co_fcol r g).
    + intros x i Hi. rewrite fapply_fapply. transitivity (fapply r delta x i); [|now apply ToriLat.fapply_delta]. unfold fapply. apply zsum_ext. intros j Hj. f_equal. unfold fmul.
      specialize (IV (basis r i) (basis_length r i)). apply (f_equal (fun v => co v j)) in IV. unfold image_by in IV at 2. rewrite comb_basis in IV by (auto using fcol_length). unfold image_by in IV. rewrite co_comb in IV by auto.
      rewrite co_basis in IV by auto. unfold delta. rewrite Nat.eqb_sym, <- IV. apply zsum_ext. intros k Hk. now rewrite !co_fcol by auto.
  - intros s Hs. split; [apply F1|apply F2]; auto.
  - intros x v X. apply (image_mod2 r r _ (fun i j => g j i)); auto.
Qed.

(** *** of a Cartan matrix *)
Theorem make_adjoint_run dim n A c W f : is_mx c n n A -> weyl_of n A W -> n <= dim -> twist_of n A f ->
  gives (make_adjoint_tits dim c W f) (fun G => tg_W G = W /\ tg_twist G = f /\ tits_of dim n A n G /\ twist_ok dim n A n G /\
    (forall s, s < n -> (forall i, coord (root2 G s) i = (i =? s)) /\ mod2 n (fun k => A k s) (coroot2 G s)) /\
    forall x i, within n x -> i < n -> coord (image_of (cols (tg_inv G)) x) i = coord x (nth i f 0)) (fun _ => False).
Proof.
  intros HM HW HD TW. assert (FL : forall s, s < n -> nth s f 0 < n /\ nth (nth s f 0) f 0 = s) by (destruct TW as (_ & X & _); exact X).
  unfold make_adjoint_tits. rewrite (is_mx_rows _ _ _ _ HM). eapply gives_bind.
  { apply (gives_upto0 (fun k '(rs, cs, inv) => length rs = k /\ length cs = k /\ (forall s, s < k -> (sized n (nth s rs (bv_zero 0)) /\ (forall i, coord (data (nth s rs (bv_zero 0))) i = (i =? s))) /\
      (sized n (nth s cs (bv_zero 0)) /\ mod2 n (fun k => A k s) (data (nth s cs (bv_zero 0))))) /\ rows inv = n /\ ncols inv = n /\
      forall i j, F2Spec.entry (cols inv) i j = (i <? k) && (j =? nth i f 0))).
    - split; [auto|]. split; [auto|]. split; [intros s Hs; lia|]. split; [auto|]. split; [apply repeat_length|]. intros i j. unfold F2Spec.entry, bm_zero. cbn [cols].
      rewrite nth_repeat. apply coord_0.
    - intros i [[rs cs] inv] Hi (La & Lb & F & R1 & R2 & R3). eapply gives_bind; [apply bv_unit_ok; lia|]. intros x (Sx & Ux).
      rewrite (column_run c n n A i HM Hi). cbn [bind]. eapply gives_bind; [apply (mod2_run dim n); [apply fcol_length|auto]|]. intros y (Sy & Uy).
      rewrite (vget_at f i 0) by (destruct TW; lia). cbn [bind]. destruct (FL i Hi) as [Fi _]. eapply gives_bind; [apply bm_set_ok; lia|]. intros inv' (R1' & R2' & R3'). cbn [gives].
      rewrite !app_length. cbn [length]. split; [lia|]. split; [lia|]. split; [|split; [congruence|split; [congruence|]]].
      + intros s Hs. rewrite !(nth_snoc _ _ s i) by auto. destruct (Nat.eqb_spec s i) as [->|NE]; [|apply F; lia]. split; split; auto.
        * split; [|auto]. intros k Hk. rewrite Ux. apply Nat.eqb_neq. lia.
        * split; [apply Sy|]. intros k Hk. destruct Uy as [_ Uy]. rewrite Uy by auto. now rewrite co_fcol.
      + intros k l. rewrite R3', R3. destruct (Nat.eqb_spec k i) as [->|NE]; cbn [andb].
        * rewrite (proj2 (Nat.ltb_ge i i) (le_n i)), (proj2 (Nat.ltb_lt i (S i)) (le_n _)). cbn [andb]. now destruct (l =? nth i f 0).
        * destruct (Nat.ltb_spec k i), (Nat.ltb_spec k (S i)); auto; lia.
    - intros st H. exact H. }
  intros [[rs cs] inv] (La & Lb & F & R1 & R2 & R3). cbn [gives]. set (G := mk_tits W f n rs cs inv).
  assert (F1 : forall s, s < n -> sized n (nth s (tg_root G) (bv_zero 0)) /\ mod2 n (fun k => delta s k) (root2 G s)).
  { intros s Hs. destruct (F s Hs) as [[S1 U1] _]. split; [exact S1|]. split; [apply S1|]. intros i Hi. unfold root2. cbn [G tg_root]. rewrite U1. unfold delta. rewrite Nat.eqb_sym. now destruct (s =? i). }
  assert (F2 : forall s, s < n -> sized n (nth s (tg_coroot G) (bv_zero 0)) /\ mod2 n (fun k => A k s) (coroot2 G s)) by (intros s Hs; apply F; auto).
  assert (MT : is_matrix n n (cols (tg_inv G)) /\ rows (tg_inv G) = n).
  { split; [|exact R1]. split; [exact R2|]. intros x I i Hi. destruct (In_nth _ _ 0%N I) as (j & Hj & <-). change (F2Spec.entry (cols inv) i j = false). rewrite R3.
    destruct (Nat.ltb_spec i n); [lia|auto]. }
  assert (EN : forall i j, i < n -> j < n -> F2Spec.entry (cols (tg_inv G)) i j = Z.odd (delta (nth i f 0) j)).
  { intros i j Hi Hj. cbn [G tg_inv]. rewrite R3. rewrite (proj2 (Nat.ltb_lt i n) Hi). unfold delta. rewrite Nat.eqb_sym. now destruct (nth i f 0 =? j). }
  assert (FA : forall x i, i < n -> fapply n (fun i j => delta (nth i f 0) j) x i = x (nth i f 0)).
  { intros x i Hi. unfold fapply. apply zsum_delta_l. now apply FL. }
  split; [auto|]. split; [auto|]. split; [|split; [|split]].
  - apply (integral_tits dim n _ n G (fun s k => delta s k) (fun s k => A k s)); auto. intros s t Hs Ht. now apply (zsum_delta_l n (fun k => A k t)).
  - apply (integral_twist dim n _ n G (fun s k => delta s k) (fun s k => A k s) F1 F2 (fun i j => delta (nth i f 0) j)); auto.
    + intros s i Hs Hi. rewrite FA by auto. cbn [G tg_twist]. destruct TW as (_ & _ & Q). destruct (FL s Hs) as [Fs Fss]. rewrite <- (Q i (nth s f 0)) by auto. now rewrite Fss.
    + intros s x Hs. cbn [G tg_twist]. destruct (FL s Hs) as [Fs Fss]. rewrite !zsum_delta_l by auto. now rewrite FA, Fss by auto.
    + intros x i Hi. destruct (FL i Hi) as [Fs Fss]. now rewrite !FA, Fss by auto.
  - intros s Hs. split; [apply F; auto|apply F2; auto].
  - intros x i B Hi. pose proof (image_mod2 n n (tg_inv G) (fun i j => delta (nth i f 0) j) _ _ (proj1 MT) EN (mod2_lift n x B)) as [_ Q]. rewrite Q by auto. rewrite FA by auto. apply odd_b2z.
Qed.
