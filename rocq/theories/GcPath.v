(** Simple imaginary roots are carried to simple roots by complex reflections: the lemmas of TcRoots for a twist alone. *)

From Coq Require Import List Arith NArith ZArith Bool Lia.
From Verif Require Import RunModel RunProofs VecModel MatSpec MatRing MatLin F2Model F2Spec WeylModel WeylSpec TwistSpec TwistModel LieTypeSpec
  WeylTable WeylCheck WeylExchange WeylGroup WeylOps WeylMore WeylMake WeylExt WeylSign TwistWords TwistProofs RootModel RootSpec RootMath RootForm RootFin RootTop RootPerm RsfModel RsfBase RsfProofs TgModel TgSem TgProofs TgRuns TnProofs TcSpec TcProofs TcRoots GcFix.
Import ListNotations.
Open Scope nat_scope.

Section Complex.
Variables (n : nat) (A : nat -> nat -> Z) (fl : list nat).
Hypothesis CA : WeylGroup.Cartan_like n A.
Hypothesis FT : finite_type n A.
Hypothesis TW : twist_of n A fl.
Variable eqw : list nat -> list nat -> bool.
Hypothesis EQW : forall u v, over n u -> over n v -> (eqw u v = true <-> same n (coxeter A) u v).
Variable ell : list nat -> nat.
Hypothesis ELL : forall u, over n u -> shortest n (coxeter A) u (ell u).
Notation CL := (proj1 (f_cart n A FT)).
Notation f := (fun s => nth s fl 0).
Notation fixed := (fixed_by n A fl).
Notation cj := (conjugated fl).
Notation "u ~ v" := (same n (coxeter A) u v) (at level 70).
Notation TI := (twisted_involution n A fl).
Notation up := (RootMath.up n A).
Lemma fixed_same v v' x : over n v -> over n v' -> v ~ v' -> length x = n -> fixed v x -> fixed v' x.
Proof.
  intros O O' E L F i Hi. rewrite <- (act_eq n A CA (rev v) (rev v') x); [now apply F|now apply over_rev|now apply over_rev| |exact L]. apply same_rev; [apply cox_symm|exact E].
Qed.
(** a simple reflection that is not complex for an imaginary root belongs to an imaginary simple root *)
Lemma fixed_simple s v y : s < n -> over n v -> length y = n -> fixed v y -> (0 < pairing n A y s)%Z -> TwistWords.comm n A fl s v -> fixed v (basis n s).
Proof.
  intros Hs O L F P C. pose proof (f_lt n A fl TW s Hs) as Hf. set (Z := word_act n A (rev v)). set (e := Z (basis n s)). set (p := pairing n A y s) in *.
  assert (Or : over n (rev v)) by now apply over_rev. assert (LZ : length (Z y) = n) by now apply act_length.
  assert (Q : sreflect n A (f s) (Z (sreflect n A s y)) = Z y).
  { unfold Z. rewrite <- (act_eq n A CA (rev (cj s v)) (rev v) y); [| |exact Or| |exact L].
    - unfold conjugated. cbn [rev]. rewrite rev_app_distr. cbn [rev app]. unfold word_act. cbn [fold_right]. rewrite fold_right_app. reflexivity.
    - apply over_rev. now apply (TwistWords.conj_over n A fl TW).
    - apply same_rev; [apply cox_symm|exact C]. }
  assert (B : forall k, k < n -> co (Z (sreflect n A s y)) k = (co (Z y) k - p * co e k)%Z).
  { intros k Hk. unfold Z, sreflect. rewrite (act_bump n A) by assumption. fold Z. fold e. fold p. ring. }
  assert (Lw : length (Z (sreflect n A s y)) = n) by (apply act_length; now rewrite sr_length).
  assert (E0 : forall k, k < n -> k <> f s -> co e k = 0%Z).
  { intros k Hk Ne. apply (f_equal (fun x => co x k)) in Q. rewrite co_sr in Q by lia. rewrite (proj2 (Nat.eqb_neq _ _) Ne), B in Q by exact Hk. nia. }
  assert (E1 : co e (f s) = 1%Z).
  { assert (Bw : Z (sreflect n A s y) = bump (Z y) (f s) (- (p * co e (f s)))%Z).
    { apply vec_ext; [rewrite bump_length; congruence|]. intros k Hk. rewrite Lw in Hk. rewrite B, co_bump by lia. destruct (Nat.eqb_spec k (f s)) as [->|Ne]; [ring|]. rewrite (E0 k Hk Ne). ring. }
    apply (f_equal (fun x => co x (f s))) in Q. rewrite co_sr in Q by lia. rewrite Nat.eqb_refl in Q. rewrite B in Q by exact Hf. rewrite Bw, pair_bump in Q by assumption. rewrite (proj1 CL (f s) Hf) in Q.
    pose proof (GcFix.pair_twist n A fl TW (Z y) y s Hs F) as Pt. cbv beta in Pt. rewrite Pt in Q. fold p in Q. cbv beta. nia. }
  intros i Hi. change (co e (nth i fl 0) = co (basis n s) i). rewrite co_basis by exact Hs. destruct (Nat.eqb_spec i s) as [->|Ne]; [exact E1|]. apply E0; [now apply (f_lt n A fl TW)|].
  intros X. apply Ne. rewrite <- (f_f n A fl TW i Hi), <- (f_f n A fl TW s Hs). cbv beta in *. now rewrite X.
Qed.
(** what is used of simple imaginary roots *)
Definition alone (v : list nat) (y : list Z) : Prop := fixed v y /\ forall x z, up x -> up z -> fixed v x -> fixed v z -> y <> plus n x z.
Lemma not_simple s v y : s < n -> over n v -> up y -> alone v y -> y <> basis n s -> (0 < pairing n A y s)%Z -> ~ fixed v (basis n s).
Proof.
  intros Hs O U [F N] Ne P Fs. pose proof (up_length n A y U) as L. destruct (top_good n A FT) as [(_ & (d & D1 & D2 & D3) & _) _].
  pose proof (string_down n A d CL D1 D2 D3 y s U Hs Ne P) as U1. apply (N (bump y s (-1)) (basis n s) U1 (up_simple n A s Hs)); [|exact Fs|].
  - intros i Hi. pose proof (f_lt n A fl TW i Hi) as Hf. rewrite (act_bump n A) by (try assumption; now apply over_rev). rewrite (F i Hi), (Fs i Hi), co_bump, co_basis by lia. destruct (i =? s); lia.
  - apply vec_ext; [rewrite plus_length; exact L|]. intros k Hk. rewrite co_plus by (rewrite ?bump_length, ?basis_length; auto). rewrite co_bump, co_basis by lia. destruct (k =? s); lia.
Qed.
Lemma complex_step s v y : s < n -> TI v -> up y -> alone v y -> y <> basis n s -> (0 < pairing n A y s)%Z -> complex_for n A fl s v.
Proof.
  intros Hs TV U AL Ne P. pose proof TV as [O _]. pose proof (not_simple s v y Hs O U AL Ne P) as NF.
  assert (NC : ~ TwistWords.comm n A fl s v) by (intros C; apply NF; apply (fixed_simple s v y Hs O (up_length n A y U) (proj1 AL) P C)).
  exists (ell v), (ell (cj s v)). split; [now apply ELL|]. split; [apply ELL; now apply (TwistWords.conj_over n A fl TW)|].
  destruct (conj_ell n A fl TW eqw EQW ell ELL s v Hs TV NC) as [C1 C2]. change (s :: v ++ [nth s fl 0]) with (cj s v) in *.
  destruct (ell_cons n (coxeter A) ell ELL s v Hs O); lia.
Qed.
Lemma up_sr s x : s < n -> up x -> x <> basis n s -> up (sreflect n A s x).
Proof.
  intros Hs U Ne. destruct (Z.lt_trichotomy (pairing n A x s) 0) as [P|[P|P]].
  - now apply up_reflect.
  - replace (sreflect n A s x) with x; [exact U|]. apply vec_ext; [now rewrite sr_length|]. intros k Hk. rewrite co_sr by (rewrite (up_length n A x U) in *; lia). rewrite P. destruct (k =? s); lia.
  - apply (up_down n A CL (f_small n A FT) x s U Hs Ne P).
Qed.
Lemma back s v : s < n -> over n v -> cj s (cj s v) ~ v.
Proof.
  intros Hs O. unfold conjugated. change (s :: (s :: v ++ [nth s fl 0]) ++ [nth s fl 0]) with ([s; s] ++ (v ++ [nth s fl 0]) ++ [nth s fl 0]). rewrite <- (app_assoc v).
  apply (same_app _ _ [s; s] []); [now apply same_square|]. apply same_undo. now apply (f_lt n A fl TW).
Qed.
Lemma fixed_back s v x : s < n -> over n v -> length x = n -> fixed (cj s v) x -> fixed v (sreflect n A s x).
Proof.
  intros Hs O L F. pose proof (TwistWords.conj_over n A fl TW s v Hs O) as O1. apply (fixed_same (cj s (cj s v)) v); [now apply (TwistWords.conj_over n A fl TW)|exact O|now apply back|now rewrite sr_length|].
  now apply (GcFix.fixed_step n A fl CL TW s (cj s v) x).
Qed.
Lemma alone_step s v y : s < n -> over n v -> up y -> alone v y -> y <> basis n s -> (0 < pairing n A y s)%Z -> alone (cj s v) (sreflect n A s y).
Proof.
  intros Hs O U AL Ne P. pose proof (not_simple s v y Hs O U AL Ne P) as NF. pose proof (up_length n A y U) as L. destruct AL as [F N]. split; [now apply (GcFix.fixed_step n A fl CL TW)|].
  intros x z Ux Uz Fx Fz E. pose proof (up_length n A x Ux) as Lx. pose proof (up_length n A z Uz) as Lz.
  assert (NB : forall q, up q -> fixed (cj s v) q -> q <> basis n s).
  { intros q Uq Fq ->. apply NF. pose proof (fixed_back s v (basis n s) Hs O (basis_length n s) Fq) as Q. intros i Hi. specialize (Q i Hi). pose proof (f_lt n A fl TW i Hi) as Hf.
    unfold sreflect in Q. rewrite (act_bump n A) in Q by (try assumption; rewrite ?basis_length; auto; now apply over_rev). rewrite (pair_basis n A s s Hs), (proj1 CL s Hs), co_bump in Q by (rewrite basis_length; lia).
    rewrite co_basis in * by exact Hs. destruct (i =? s); lia. }
  apply (N (sreflect n A s x) (sreflect n A s z)); [apply up_sr; auto|apply up_sr; auto|now apply fixed_back|now apply fixed_back|].
  rewrite <- (sr_sr n A CL s y Hs L), E. apply vec_ext; [rewrite sr_length, !plus_length; reflexivity|]. intros k Hk. rewrite sr_length, plus_length in Hk.
  rewrite co_sr by (rewrite plus_length; lia). rewrite !co_plus by (rewrite ?sr_length; assumption). rewrite !co_sr by lia.
  replace (pairing n A (plus n x z) s) with (pairing n A x s + pairing n A z s)%Z; [destruct (k =? s); ring|]. unfold pairing. rewrite <- zsum_add. apply zsum_ext. intros j Hj. rewrite co_plus by assumption. ring.
Qed.
(** a path of descents *)
Lemma descends_complex w : forall v y, TI v -> up y -> alone v y -> TcRoots.descends n A w y -> complex_path n A fl w v.
Proof.
  induction w as [|s w IH]; intros v y TV U AL Q; [exact I|]. destruct Q as (Hs & P & Ne & Q). pose proof TV as [O _]. split; [now apply (complex_step s v y)|].
  apply (IH (cj s v) (sreflect n A s y)); [now apply (TI_conj n A fl TW)|now apply up_sr|now apply alone_step|exact Q].
Qed.
End Complex.

