(** Simple imaginary roots are carried to simple roots by complex reflections. *)

From Coq Require Import List Arith NArith ZArith Bool Lia.
From Verif Require Import RunModel RunProofs VecModel MatSpec MatRing MatLin F2Model F2Spec WeylModel WeylSpec TwistSpec TwistModel LieTypeSpec
  WeylTable WeylCheck WeylExchange WeylGroup WeylOps WeylMore WeylMake WeylExt WeylSign TwistWords TwistProofs RootModel RootSpec RootMath RootForm RootFin RootTop RootPerm RsfModel RsfBase RsfProofs TgModel TgSem TgProofs TgRuns TnProofs TcSpec TcEval TcProofs.
Import ListNotations.
Open Scope nat_scope.

Lemma same_cox n m m' u v : (forall s t, m s t = m' s t) -> same n m u v -> same n m' u v.
Proof.
  intros E Q. induction Q; [apply same_refl|now apply same_sym|eapply same_trans; eauto|now apply same_app|now apply same_square|]. rewrite !E. now apply same_braid.
Qed.
Section Linear.
Variables (n : nat) (A : nat -> nat -> Z).
Hypothesis CA : WeylGroup.Cartan_like n A.
Hypothesis CL : LieTypeSpec.Cartan_like n A.
Notation "u ~ v" := (same n (coxeter A) u v) (at level 70).
Lemma flip_like : WeylGroup.Cartan_like n (flip A).
Proof.
  destruct CA as [D F]. split; [exact D|]. intros i j Hi Hj Ne. specialize (F j i Hj Hi (not_eq_sym Ne)). exact F.
Qed.
Definition pay (y : list Z) (x : nat -> Z) : Z := zsum n (fun i => co y i * x i)%Z.
Lemma pay_bump y s c x : s < n -> length y = n -> pay (bump y s c) x = (pay y x + c * x s)%Z.
Proof. intros Hs L. unfold pay. apply (zsum_bump n _ _ s); [exact Hs|]. intros k Hk. rewrite co_bump by lia. destruct (Nat.eqb_spec k s) as [->|]; ring. Qed.
Lemma pay_reflect y s x : s < n -> length y = n -> pay (sreflect n A s y) x = pay y (WeylSpec.reflect (flip A) s x).
Proof.
  intros Hs L. unfold sreflect. rewrite pay_bump by assumption. unfold pay, pairing, WeylSpec.reflect, flip.
  rewrite (zsum_ext n (fun i => co y i * (x i - x s * A i s))%Z (fun i => co y i * x i + (- x s) * (co y i * A i s))%Z) by (intros; ring). rewrite zsum_add, zsum_mul_l. ring.
Qed.
Lemma pay_word u y x : over n u -> length y = n -> pay (word_act n A u y) x = pay y (reflect_word (flip A) u x).
Proof.
  revert x. induction u as [|s u IH]; intros x O L; [reflexivity|]. apply over_cons in O. destruct O as [Hs O]. cbn [word_act fold_right]. fold (word_act n A u y).
  rewrite pay_reflect; [|exact Hs|now apply act_length]. rewrite IH by assumption. reflexivity.
Qed.
Definition unit (k i : nat) : Z := if i =? k then 1%Z else 0%Z.
Lemma pay_unit y k : k < n -> pay y (unit k) = co y k.
Proof. intros Hk. unfold pay, unit. rewrite (zsum_one n k _ Hk); [rewrite Nat.eqb_refl; ring|]. intros i _ Ne. rewrite (proj2 (Nat.eqb_neq _ _) Ne). ring. Qed.
Lemma act_eq u v y : over n u -> over n v -> u ~ v -> length y = n -> word_act n A u y = word_act n A v y.
Proof.
  intros Ou Ov E L. pose proof (act_length n A u y L) as L1. pose proof (act_length n A v y L) as L2. apply vec_ext; [congruence|]. intros k Hk. rewrite L1 in Hk.
  rewrite <- !pay_unit, !pay_word by assumption. unfold pay. apply zsum_ext. intros i Hi. f_equal. apply (reflect_same n (flip A)); [exact flip_like|]. apply (same_cox n (coxeter A)); [|exact E]. intros s t. unfold coxeter, flip. now rewrite Z.mul_comm.
Qed.
(** linearity *)
Lemma act_bump u y s c k : over n u -> s < n -> length y = n -> k < n -> co (word_act n A u (bump y s c)) k = (co (word_act n A u y) k + c * co (word_act n A u (basis n s)) k)%Z.
Proof.
  intros O Hs L Hk. rewrite <- !pay_unit, !pay_word by (try assumption; rewrite ?bump_length, ?basis_length; auto). rewrite pay_bump by assumption. f_equal. f_equal.
  unfold pay. rewrite (zsum_one n s _ Hs); [rewrite co_basis, Nat.eqb_refl by exact Hs; ring|]. intros i _ Ne. rewrite co_basis by exact Hs. rewrite (proj2 (Nat.eqb_neq _ _) Ne). ring.
Qed.
Lemma act_plus u y z k : over n u -> length y = n -> length z = n -> k < n -> co (word_act n A u (plus n y z)) k = (co (word_act n A u y) k + co (word_act n A u z) k)%Z.
Proof.
  intros O L L' Hk. rewrite <- !pay_unit, !pay_word by (try assumption; apply plus_length). unfold pay. rewrite <- zsum_add. apply zsum_ext. intros i Hi. rewrite co_plus by assumption. ring.
Qed.
End Linear.

Section Complex.
Variables (dim n : nat) (A : nat -> nat -> Z) (r : nat) (G : tits_group) (comps : list component).
Notation W := (tg_W G).
Hypothesis D : describes n A comps.
Hypothesis RM : n <= rank_max.
Hypothesis MK : make_weyl n comps = Ok W.
Hypothesis T : tits_of dim n A r G.
Hypothesis K : twist_ok dim n A r G.
Hypothesis ND : n <= dim.
Hypothesis FT : finite_type n A.
Notation CL := (proj1 (f_cart n A FT)).
Notation CA := (Cart n A comps W D RM MK).
Notation ell := (ellx n comps W).
Notation ELL := (ELLx n A comps W D RM MK).
Notation fl := (tg_twist G).
Notation f := (fun s => nth s fl 0).
Notation TW := (tw_twist _ _ _ _ _ K).
Notation fixed := (fixed_by n A fl).
Notation cj := (conjugated fl).
Notation "u ~ v" := (same n (coxeter A) u v) (at level 70).
Notation TI := (twisted_involution n A fl).
Notation up := (RootMath.up n A).
Lemma fixed_same v v' x : over n v -> over n v' -> v ~ v' -> length x = n -> fixed v x -> fixed v' x.
Proof.
  intros O O' E L F i Hi. rewrite <- (act_eq n A CA (rev v) (rev v') x); [now apply F|now apply over_rev|now apply over_rev| |exact L]. apply same_rev; [apply cox_symm|exact E].
Qed.
(** a simple reflection that is not complex for an imaginary root belongs to an imaginary simple root *)
Lemma fixed_simple s v y : s < n -> over n v -> length y = n -> fixed v y -> (0 < pairing n A y s)%Z -> TwistWords.comm n A fl s v -> fixed v (basis n s).
Proof.
  intros Hs O L F P C. pose proof (F_lt dim n A r G K s Hs) as Hf. set (Z := word_act n A (rev v)). set (e := Z (basis n s)). set (p := pairing n A y s) in *.
  assert (Or : over n (rev v)) by now apply over_rev. assert (LZ : length (Z y) = n) by now apply act_length.
  assert (Q : sreflect n A (f s) (Z (sreflect n A s y)) = Z y).
  { unfold Z. rewrite <- (act_eq n A CA (rev (cj s v)) (rev v) y); [| |exact Or| |exact L].
    - unfold conjugated. cbn [rev]. rewrite rev_app_distr. cbn [rev app]. unfold word_act. cbn [fold_right]. rewrite fold_right_app. reflexivity.
    - apply over_rev. now apply (cj_over dim n A r G K).
    - apply same_rev; [apply cox_symm|exact C]. }
  assert (B : forall k, k < n -> co (Z (sreflect n A s y)) k = (co (Z y) k - p * co e k)%Z).
  { intros k Hk. unfold Z, sreflect. rewrite (act_bump n A) by assumption. fold Z. fold e. fold p. ring. }
  assert (Lw : length (Z (sreflect n A s y)) = n) by (apply act_length; now rewrite sr_length).
  assert (E0 : forall k, k < n -> k <> f s -> co e k = 0%Z).
  { intros k Hk Ne. apply (f_equal (fun x => co x k)) in Q. rewrite co_sr in Q by lia. rewrite (proj2 (Nat.eqb_neq _ _) Ne), B in Q by exact Hk. nia. }
  assert (E1 : co e (f s) = 1%Z).
  { assert (Bw : Z (sreflect n A s y) = bump (Z y) (f s) (- (p * co e (f s)))%Z).
    { apply vec_ext; [rewrite bump_length; congruence|]. intros k Hk. rewrite Lw in Hk. rewrite B, co_bump by lia. destruct (Nat.eqb_spec k (f s)) as [->|Ne]; [ring|]. rewrite (E0 k Hk Ne). ring. }
    apply (f_equal (fun x => co x (f s))) in Q. rewrite co_sr in Q by lia. rewrite Nat.eqb_refl in Q. rewrite B in Q by exact Hf. rewrite Bw, pair_bump in Q by assumption. rewrite (proj1 CL (f s) Hf) in Q.
    pose proof (pair_twist dim n A r G RM K ND (Z y) y s Hs F) as Pt. cbv beta in Pt. rewrite Pt in Q. fold p in Q. cbv beta. nia. }
  intros i Hi. change (co e (nth i fl 0) = co (basis n s) i). rewrite co_basis by exact Hs. destruct (Nat.eqb_spec i s) as [->|Ne]; [exact E1|]. apply E0; [now apply (F_lt dim n A r G K)|].
  intros X. apply Ne. rewrite <- (F_inv dim n A r G K i Hi), <- (F_inv dim n A r G K s Hs). cbv beta in *. now rewrite X.
Qed.
(** what is used of simple imaginary roots *)
Definition alone (v : list nat) (y : list Z) : Prop := fixed v y /\ forall x z, up x -> up z -> fixed v x -> fixed v z -> y <> plus n x z.
Lemma not_simple s v y : s < n -> over n v -> up y -> alone v y -> y <> basis n s -> (0 < pairing n A y s)%Z -> ~ fixed v (basis n s).
Proof.
  intros Hs O U [F N] Ne P Fs. pose proof (up_length n A y U) as L. destruct (top_good n A FT) as [(_ & (d & D1 & D2 & D3) & _) _].
  pose proof (string_down n A d CL D1 D2 D3 y s U Hs Ne P) as U1. apply (N (bump y s (-1)) (basis n s) U1 (up_simple n A s Hs)); [|exact Fs|].
  - intros i Hi. pose proof (F_lt dim n A r G K i Hi) as Hf. rewrite (act_bump n A) by (try assumption; now apply over_rev). rewrite (F i Hi), (Fs i Hi), co_bump, co_basis by lia. destruct (i =? s); lia.
  - apply vec_ext; [rewrite plus_length; exact L|]. intros k Hk. rewrite co_plus by (rewrite ?bump_length, ?basis_length; auto). rewrite co_bump, co_basis by lia. destruct (k =? s); lia.
Qed.
Lemma complex_step s v y : s < n -> TI v -> up y -> alone v y -> y <> basis n s -> (0 < pairing n A y s)%Z -> complex_for n A fl s v.
Proof.
  intros Hs TV U AL Ne P. pose proof TV as [O _]. pose proof (not_simple s v y Hs O U AL Ne P) as NF.
  assert (NC : ~ TwistWords.comm n A fl s v) by (intros C; apply NF; apply (fixed_simple s v y Hs O (up_length n A y U) (proj1 AL) P C)).
  exists (ell v), (ell (cj s v)). split; [now apply ELL|]. split; [apply ELL; now apply (cj_over dim n A r G K)|].
  destruct (conj_ell n A fl TW (eqx W) (EQX n A comps W D RM MK) ell ELL s v Hs TV NC) as [C1 C2]. change (s :: v ++ [nth s fl 0]) with (cj s v) in *.
  destruct (ell_cons n (coxeter A) ell ELL s v Hs O); lia.
Qed.
Lemma up_sr s x : s < n -> up x -> x <> basis n s -> up (sreflect n A s x).
Proof.
  intros Hs U Ne. destruct (Z.lt_trichotomy (pairing n A x s) 0) as [P|[P|P]].
  - now apply up_reflect.
  - replace (sreflect n A s x) with x; [exact U|]. apply vec_ext; [now rewrite sr_length|]. intros k Hk. rewrite co_sr by (rewrite (up_length n A x U) in *; lia). rewrite P. destruct (k =? s); lia.
  - apply (up_down n A CL (f_small n A FT) x s U Hs Ne P).
Qed.
Lemma back s v : s < n -> over n v -> cj s (cj s v) ~ v.
Proof.
  intros Hs O. unfold conjugated. change (s :: (s :: v ++ [nth s fl 0]) ++ [nth s fl 0]) with ([s; s] ++ (v ++ [nth s fl 0]) ++ [nth s fl 0]). rewrite <- (app_assoc v).
  apply (same_app _ _ [s; s] []); [now apply same_square|]. apply same_undo. now apply (F_lt dim n A r G K).
Qed.
Lemma fixed_back s v x : s < n -> over n v -> length x = n -> fixed (cj s v) x -> fixed v (sreflect n A s x).
Proof.
  intros Hs O L F. pose proof (cj_over dim n A r G K s v Hs O) as O1. apply (fixed_same (cj s (cj s v)) v); [now apply (cj_over dim n A r G K)|exact O|now apply back|now rewrite sr_length|].
  now apply (fixed_step dim n A r G RM T K ND CL s (cj s v) x).
Qed.
Lemma alone_step s v y : s < n -> over n v -> up y -> alone v y -> y <> basis n s -> (0 < pairing n A y s)%Z -> alone (cj s v) (sreflect n A s y).
Proof.
  intros Hs O U AL Ne P. pose proof (not_simple s v y Hs O U AL Ne P) as NF. pose proof (up_length n A y U) as L. destruct AL as [F N]. split; [now apply (fixed_step dim n A r G RM T K ND CL)|].
  intros x z Ux Uz Fx Fz E. pose proof (up_length n A x Ux) as Lx. pose proof (up_length n A z Uz) as Lz.
  assert (NB : forall q, up q -> fixed (cj s v) q -> q <> basis n s).
  { intros q Uq Fq ->. apply NF. pose proof (fixed_back s v (basis n s) Hs O (basis_length n s) Fq) as Q. intros i Hi. specialize (Q i Hi). pose proof (F_lt dim n A r G K i Hi) as Hf.
    unfold sreflect in Q. rewrite (act_bump n A) in Q by (try assumption; rewrite ?basis_length; auto; now apply over_rev). rewrite (pair_basis n A s s Hs), (proj1 CL s Hs), co_bump in Q by (rewrite basis_length; lia).
    rewrite co_basis in * by exact Hs. destruct (i =? s); lia. }
  apply (N (sreflect n A s x) (sreflect n A s z)); [apply up_sr; auto|apply up_sr; auto|now apply fixed_back|now apply fixed_back|].
  rewrite <- (sr_sr n A CL s y Hs L), E. apply vec_ext; [rewrite sr_length, !plus_length; reflexivity|]. intros k Hk. rewrite sr_length, plus_length in Hk.
  rewrite co_sr by (rewrite plus_length; lia). rewrite !co_plus by (rewrite ?sr_length; assumption). rewrite !co_sr by lia.
  replace (pairing n A (plus n x z) s) with (pairing n A x s + pairing n A z s)%Z; [destruct (k =? s); ring|]. unfold pairing. rewrite <- zsum_add. apply zsum_ext. intros j Hj. rewrite co_plus by assumption. ring.
Qed.
(** a path of descents *)
Fixpoint descends (w : list nat) (y : list Z) : Prop :=
  match w with [] => True | s :: w => s < n /\ (0 < pairing n A y s)%Z /\ y <> basis n s /\ descends w (sreflect n A s y) end.
Lemma descends_complex w : forall v y, TI v -> up y -> alone v y -> descends w y -> complex_path n A fl w v.
Proof.
  induction w as [|s w IH]; intros v y TV U AL Q; [exact I|]. destruct Q as (Hs & P & Ne & Q). pose proof TV as [O _]. split; [now apply (complex_step s v y)|].
  apply (IH (cj s v) (sreflect n A s y)); [now apply (TI_conj n A fl TW)|now apply up_sr|now apply alone_step|exact Q].
Qed.
End Complex.

Section Path.
Variables (n : nat) (A : nat -> nat -> Z) (c : MatModel.matrix Z) (pc : bool) (rs : rootsys).
Hypothesis L : n <= 32.
Hypothesis FT : finite_type n A.
Hypothesis H : MatSpec.is_mx c n n A.
Hypothesis E : root_system c pc = Ok rs.
Notation c1 := (fun '(a, w) => run i <- find_descent rs a; Ok (negb (a =? pos_nr (num_pos rs) i))).
Notation b1 := (fun '(a, w) => run i <- find_descent rs a; run b <- simple_reflected rs i a; Ok (b, w ++ [i])).
Lemma descends_loop k : forall a w0 a' v, num_pos rs <= a < 2 * num_pos rs -> loop k c1 b1 (a, w0) = Ok (a', w0 ++ v) -> descends n A v (RootTop.root_at rs a).
Proof.
  induction k as [|k IH]; intros a w0 a' v Ha Q; cbn [loop] in Q; destruct (descent_run n A c pc rs L FT H E a Ha) as (i & Ei & Hi & P); rewrite Ei in Q; cbn [bind] in Q; destruct (Nat.eqb_spec a (pos_nr (num_pos rs) i)) as [_|Ne]; cbn [negb] in Q.
  - injection Q as _ Q. rewrite <- (app_nil_r w0) in Q at 1. apply app_inv_head in Q. subst v. exact I.
  - discriminate.
  - injection Q as _ Q. rewrite <- (app_nil_r w0) in Q at 1. apply app_inv_head in Q. subst v. exact I.
  - destruct (sgt_ok n A c pc rs L FT H E i a Hi ltac:(lia)) as (Es & _ & Er & _). rewrite Es in Q. cbn [bind] in Q. destruct (prefix rs _ _ _ _ _ Q) as (x & Ex). rewrite <- app_assoc in Ex. apply app_inv_head in Ex. subst v.
    destruct (sgt_pos n A c pc rs L FT H E i a Hi Ha Ne) as (Hp & _). destruct (simple_lt n A c pc rs L FT H E i Hi) as (Hl & Esim & _).
    split; [exact Hi|]. split; [exact P|]. split.
    + intros X. apply Ne. unfold pos_nr. apply (rt_eq n A c pc rs L FT H E); [lia|lia|]. now rewrite Esim.
    + rewrite <- Er. apply (IH _ (w0 ++ [i]) a' x Hp). rewrite <- app_assoc. exact Q.
Qed.
Lemma descends_conjugate a i w : num_pos rs <= a < 2 * num_pos rs -> conjugate_to_simple rs a = Ok (i, w) -> descends n A w (RootTop.root_at rs a).
Proof.
  intros Ha Q. unfold conjugate_to_simple in Q. replace (make_positive rs a) with a in Q by (unfold make_positive, is_pos; now rewrite (proj2 (Nat.leb_le _ _) (proj1 Ha))).
  destruct (loop (num_roots rs) c1 b1 (a, [])) as [[a' w']|e] eqn:Lo; [|discriminate]. cbn [bind] in Q. destruct (find_descent rs a') as [j|e]; [|discriminate]. cbn [bind] in Q. injection Q as _ ->.
  apply (descends_loop _ a [] a' w Ha Lo).
Qed.
End Path.
