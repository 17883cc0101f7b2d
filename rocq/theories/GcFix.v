(** Roots fixed by a twisted involution stay so along conjugations; a fixed simple root is imaginary. *)

From Coq Require Import List Arith ZArith Bool Lia Permutation.
From Verif Require Import RunModel VecModel MatSpec MatRing MatLin WeylModel WeylSpec WeylExchange WeylGroup WeylSign WeylTable WeylTable TwistSpec TwistWords RootModel RootSpec RootMath RootFin GtSpec TcSpec TcProofs.
Import ListNotations.
Open Scope nat_scope.

Section Fixed.
Variables (n : nat) (C : nat -> nat -> Z) (f : list nat).
Hypothesis CA : WeylGroup.Cartan_like n C.
Hypothesis CL : LieTypeSpec.Cartan_like n C.
Hypothesis TW : twist_of n C f.
Variable eqw : list nat -> list nat -> bool.
Hypothesis EQW : forall u v, over n u -> over n v -> (eqw u v = true <-> same n (coxeter C) u v).
Variable ell : list nat -> nat.
Hypothesis ELL : forall u, over n u -> shortest n (coxeter C) u (ell u).
Notation fs s := (nth s f 0).
Lemma perm_twist : LieTypeSpec.permutes n f.
Proof.
  destruct TW as (L & F & _). unfold LieTypeSpec.permutes. apply NoDup_Permutation; [|apply seq_NoDup|].
  - apply (NoDup_nth f 0). intros i j Hi Hj E. rewrite L in *. rewrite <- (proj2 (F i Hi)), <- (proj2 (F j Hj)). now rewrite E.
  - intros x. rewrite in_seq. split.
    + intros I. apply (In_nth f x 0) in I as (i & Hi & <-). rewrite L in Hi. pose proof (proj1 (F i Hi)). lia.
    + intros Hx. rewrite <- (proj2 (F x ltac:(lia))). apply nth_In. rewrite L. apply F. lia.
Qed.
Lemma pair_twist (y x : list Z) s : s < n -> (forall i, i < n -> co y (fs i) = co x i) -> RootSpec.pairing n C y (fs s) = RootSpec.pairing n C x s.
Proof.
  intros Hs E. unfold RootSpec.pairing. rewrite <- (RootFin.zsum_perm n f (fun j => co y j * C j (fs s))%Z perm_twist). apply zsum_ext. intros i Hi. rewrite E by exact Hi. f_equal. now apply (f_A n C f TW).
Qed.
Lemma fixed_step s v x : s < n -> over n v -> length x = n -> fixed_by n C f v x -> fixed_by n C f (conjugated f s v) (sreflect n C s x).
Proof.
  intros Hs O L F i Hi. pose proof (f_lt n C f TW s Hs) as Hf. unfold conjugated. cbn [rev]. rewrite rev_app_distr. cbn [rev app]. unfold word_act. cbn [fold_right]. rewrite fold_right_app. cbn [fold_right].
  rewrite (sr_sr n C CL s x Hs L). fold (word_act n C (rev v) x). assert (Ly : length (word_act n C (rev v) x) = n) by now apply act_length.
  rewrite !co_sr by lia. rewrite (pair_twist _ x s Hs F), F by exact Hi. destruct (Nat.eqb_spec i s) as [->|Ne]; [rewrite Nat.eqb_refl; rewrite ?(F s Hs); reflexivity|].
  destruct (Nat.eqb_spec (fs i) (fs s)) as [Q|_]; [|now rewrite ?(F i Hi)]. exfalso. apply Ne. rewrite <- (f_f n C f TW i Hi), Q. now apply (f_f n C f TW).
Qed.
Lemma fixed_path y : length y = n -> forall w v, over n w -> over n v -> fixed_by n C f v (word_act n C w y) -> fixed_by n C f (rev w ++ v ++ rev (relabel f (rev w))) y.
Proof.
  intros L. induction w as [|s w IH]; intros v O Ov F; [cbn; rewrite app_nil_r; exact F|]. apply over_cons in O. destruct O as [Hs O]. assert (Lw : length (word_act n C w y) = n) by now apply act_length.
  change (word_act n C (s :: w) y) with (sreflect n C s (word_act n C w y)) in F. assert (Ls : length (sreflect n C s (word_act n C w y)) = n) by (now rewrite sr_length). pose proof (fixed_step s v _ Hs Ov Ls F) as Q. rewrite (sr_sr n C CL s _ Hs Lw) in Q.
  assert (Oc : over n (conjugated f s v)) by (unfold conjugated; apply (conj_over n C f TW s v Hs Ov)).
  specialize (IH _ O Oc Q). unfold conjugated in IH. cbn [rev]. unfold relabel in *. rewrite map_app, rev_app_distr. cbn [map rev app] in *. rewrite <- !app_assoc in *. cbn [app] in *. exact IH.
Qed.
Lemma act_word u : forall y k, over n u -> length y = n -> k < n -> co (word_act n C (rev u) y) k = root_word n C u (co y) k.
Proof.
  induction u as [|s u IH]; intros y k O L Hk; [reflexivity|]. apply over_cons in O. destruct O as [Hs O]. cbn [rev]. unfold word_act. rewrite fold_right_app. cbn [fold_right]. fold (word_act n C (rev u) (sreflect n C s y)).
  rewrite IH by (try assumption; now rewrite sr_length). rewrite rw_cons. apply (rw_ext n C u O); [|exact Hk]. intros j Hj. rewrite co_sr by lia. unfold root_reflect. reflexivity.
Qed.
Lemma fixed_imaginary s u : s < n -> over n u -> fixed_by n C f u (basis n s) -> imaginary n C f u s.
Proof.
  intros Hs O F. pose proof (f_lt n C f TW s Hs) as Hf.
  assert (R : forall j, j < n -> root_word n C u (simple_root s) j = simple_root (fs s) j).
  { intros j Hj. rewrite <- (rw_ext n C u O (co (basis n s))) by (try exact Hj; intros k Hk; rewrite co_basis by exact Hs; reflexivity).
    rewrite <- act_word by (try assumption; apply basis_length). rewrite <- (f_f n C f TW j Hj) at 1. rewrite F by now apply (f_lt n C f TW). rewrite co_basis by exact Hs. unfold simple_root.
    destruct (Nat.eqb_spec (fs j) s) as [<-|Ne]; [rewrite (f_f n C f TW j Hj), Nat.eqb_refl; reflexivity|]. destruct (Nat.eqb_spec j (fs s)) as [->|]; [|reflexivity]. exfalso. apply Ne. now apply (f_f n C f TW). }
  assert (U1 : ell u < ell (s :: u)).
  { destruct (ell_cons n (coxeter C) ell ELL s u Hs O) as [E|E]; [lia|]. exfalso. destruct (sign_negative n C CA ell ELL u s Hs O ltac:(lia)) as [N _]. specialize (N (fs s) Hf). rewrite R in N by exact Hf. unfold simple_root in N. rewrite Nat.eqb_refl in N. lia. }
  assert (Or : over n (rev u)) by now apply over_rev.
  assert (U2 : ell u < ell (u ++ [fs s])).
  { destruct (ell_snoc n (coxeter C) (cox_symm C) ell ELL (fs s) u Hf O) as [E|E]; [lia|]. exfalso.
    assert (Os : over n (u ++ [fs s])) by (apply over_app; split; [exact O|now apply over_one]).
    rewrite <- (ell_rev n (coxeter C) (cox_symm C) ell ELL _ Os), <- (ell_rev n (coxeter C) (cox_symm C) ell ELL u O), rev_app_distr in E. cbn [rev app] in E.
    destruct (sign_negative n C CA ell ELL (rev u) (fs s) Hf Or ltac:(lia)) as [N _]. specialize (N s Hs).
    rewrite <- (rw_ext n C (rev u) Or _ _ R s Hs), (rw_back n C CA u _ s O Hs) in N. unfold simple_root in N. rewrite Nat.eqb_refl in N. lia. }
  split.
  - unfold commutes. apply (meet n C eqw EQW ell ELL s (fs s) u Hs Hf O U1 U2). apply (descent_sign n C CA ell ELL); [exact Hs|apply over_app; split; [exact O|now apply over_one]|].
    assert (Q : forall j, j < n -> root_word n C (u ++ [fs s]) (simple_root s) j = (- simple_root (fs s) j)%Z).
    { intros j Hj. rewrite rw_app. cbn [root_word fold_left]. rewrite (rr_ext n C (fs s) _ _ Hf R j Hj), rr_at, (row_pair n C (fs s) Hf), (proj1 CA _ Hf). unfold simple_root. destruct (j =? fs s); lia. }
    split; [intros j Hj; rewrite Q by exact Hj; unfold simple_root; destruct (j =? fs s); lia|]. exists (fs s). split; [exact Hf|]. rewrite Q by exact Hf. unfold simple_root. rewrite Nat.eqb_refl. lia.
  - exists (ell u). split; [now apply ELL|]. destruct (ell_cons n (coxeter C) ell ELL s u Hs O) as [E|E]; [|lia]. rewrite <- E. apply ELL. now apply over_cons.
Qed.
End Fixed.
