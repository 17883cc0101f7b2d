(** Twisted involutions: words *)

From Coq Require Import List Arith ZArith Lia Bool.
From Verif Require Import MatSpec MatLin RunModel WeylModel WeylSpec TwistSpec WeylTable WeylCheck WeylExchange WeylGroup WeylSign.
Import ListNotations.
Open Scope nat_scope.

(** *** linearity of the action on weights *)
Lemma act_lin A u : forall a b x y j, reflect_word A u (fun k => a * x k + b * y k)%Z j = (a * reflect_word A u x j + b * reflect_word A u y j)%Z.
Proof.
  induction u as [|s u IH]; intros a b x y j; [auto|]. rewrite !reflect_word_cons, <- IH. apply reflect_word_ext. intros k. unfold reflect. ring.
Qed.
Lemma act_sum A u m g h j : reflect_word A u (fun k => zsum m (fun i => g i * h i k)%Z) j = zsum m (fun i => g i * reflect_word A u (h i) j)%Z.
Proof.
  induction m as [|m IH].
  - cbn. rewrite (reflect_word_ext A u _ (fun k => 0 * 0 + 0 * 0)%Z) by auto. rewrite (act_lin A u 0 0 (fun _ => 0%Z) (fun _ => 0%Z)). ring.
  - assert (X : forall F, zsum (S m) F = (zsum m F + F m)%Z) by reflexivity. rewrite X, <- IH.
    rewrite (reflect_word_ext A u _ (fun k => 1 * zsum m (fun i => g i * h i k) + g m * h m k)%Z) by (intros k; rewrite X; ring).
    rewrite (act_lin A u 1 (g m) (fun k => zsum m (fun i => g i * h i k)%Z) (h m)). ring.
Qed.
Lemma act_local A n u x y j : over n u -> (forall k, k < n -> x k = y k) -> j < n -> reflect_word A u x j = reflect_word A u y j.
Proof. intros O H Hj. apply (reflect_word_matrix A A n); auto. Qed.
Notation unit_vec i := (fun k : nat => if (k =? i)%nat then 1%Z else 0%Z) (only parsing).
Lemma act_expand A n u v j : over n u -> j < n -> reflect_word A u v j = zsum n (fun i => v i * reflect_word A u (fun k => if (k =? i)%nat then 1%Z else 0%Z) j)%Z.
Proof.
  intros O Hj. rewrite <- act_sum. apply (act_local A n); auto. intros k Hk. symmetry. rewrite (zsum_one n k).
  - rewrite Nat.eqb_refl. ring.
  - auto.
  - intros i _ N. destruct (Nat.eqb_spec k i); [lia|ring].
Qed.

Section Twist.
Variables (n : nat) (A : nat -> nat -> Z) (f : list nat).
Hypothesis C : Cartan_like n A.
Hypothesis TW : twist_of n A f.
Notation "u ~ v" := (same n (coxeter A) u v) (at level 70).
Notation d u := (relabel f u).
Notation fs s := (nth s f 0).
Variable eqw : list nat -> list nat -> bool.
Hypothesis EQW : forall u v, over n u -> over n v -> (eqw u v = true <-> same n (coxeter A) u v).
Variable ell : list nat -> nat.
Hypothesis ELL : forall u, over n u -> shortest n (coxeter A) u (ell u).
Notation E_same := (ell_same n (coxeter A) ell ELL).
Notation E_cons := (ell_cons n (coxeter A) ell ELL).
Notation E_snoc := (ell_snoc n (coxeter A) (cox_symm A) ell ELL).
Notation E_rev := (ell_rev n (coxeter A) (cox_symm A) ell ELL).
Notation E_le := (ell_le n (coxeter A) ell ELL).
Notation E_word := (ell_word n (coxeter A) ell ELL).

Lemma f_lt s : s < n -> fs s < n.
Proof. intros H. now apply TW. Qed.
Lemma f_f s : s < n -> fs (fs s) = s.
Proof. intros H. now apply TW. Qed.
Lemma f_A s t : s < n -> t < n -> A (fs s) (fs t) = A s t.
Proof. apply TW. Qed.
Lemma d_over u : over n u -> over n (d u).
Proof. intros O s I. apply in_map_iff in I. destruct I as (t & <- & I). now apply f_lt, O. Qed.
Lemma d_d u : over n u -> d (d u) = u.
Proof. intros O. unfold relabel. rewrite map_map. rewrite <- (map_id u) at 2. apply map_ext_in. intros s I. now apply f_f, O. Qed.
Lemma d_app u v : d (u ++ v) = d u ++ d v.
Proof. apply map_app. Qed.
Lemma d_cons s u : d (s :: u) = fs s :: d u.
Proof. reflexivity. Qed.
Lemma d_same u v : u ~ v -> d u ~ d v.
Proof.
  apply same_map; [apply f_lt|]. intros s t Hs Ht N. split.
  - intros E. apply N. rewrite <- (f_f s Hs), E. now apply f_f.
  - unfold coxeter. now rewrite !f_A.
Qed.
Lemma d_ell u : over n u -> ell (d u) = ell u.
Proof.
  assert (X : forall u, over n u -> ell (d u) <= ell u).
  { intros v O. destruct (E_word v O) as (a & A1 & A2 & A3). rewrite (E_same (d v) (d a)); [|now apply d_over|now apply d_same].
    rewrite <- A3, <- (map_length (fun s => fs s) a). apply E_le. now apply d_over. }
  intros O. pose proof (X u O). pose proof (X (d u) (d_over u O)) as Y. rewrite d_d in Y by auto. lia.
Qed.
(** two reduced products that meet *)
Lemma meet s t v : s < n -> t < n -> over n v -> ell v < ell (s :: v) -> ell v < ell (v ++ [t]) -> ell (s :: v ++ [t]) < ell (v ++ [t]) -> s :: v ~ v ++ [t].
Proof.
  intros Hs Ht O U1 U2 Dn. destruct (E_word v O) as (x & Ox & Sx & Lx).
  assert (Oxt : over n (x ++ [t])) by (apply over_app; split; [auto|now apply over_one]). assert (Ovt : over n (v ++ [t])) by (apply over_app; split; [auto|now apply over_one]).
  assert (S2 : v ++ [t] ~ x ++ [t]) by now apply same_snoc.
  rewrite (E_same (v ++ [t]) (x ++ [t])) in Dn by auto. rewrite (E_same (s :: v ++ [t]) (s :: x ++ [t])) in Dn by (solve [now apply over_cons|now apply same_cons]).
  destruct (exchange n (coxeter A) (cox_symm A) eqw EQW ell ELL (x ++ [t]) s Oxt Hs Dn) as (a & z & b & E & S1).
  destruct (exists_last (l := z :: b) ltac:(discriminate)) as (b' & t' & Eb). rewrite Eb in E. rewrite app_assoc in E. apply app_inj_tail in E. destruct E as [E <-].
  destruct b as [|b0 b].
  - destruct b' as [|? [|]]; try discriminate. injection Eb as ->. rewrite app_nil_r in S1, E. subst a.
    apply (same_cancel_r n (coxeter A) _ _ [t] (over_one n t Ht)). apply (same_trans n _ _ (s :: x ++ [t])).
    + cbn [app]. now apply same_cons.
    + apply (same_trans n _ _ x); [auto|]. apply (same_trans n _ _ v); [now apply same_sym|]. rewrite <- app_assoc. apply same_sym. now apply same_undo.
  - exfalso. destruct b' as [|b1 b']; [discriminate|]. cbn [app] in Eb. injection Eb as <- Eb. rewrite Eb in S1. rewrite app_assoc in S1.
    assert (S3 : s :: x ~ a ++ b') by (apply (same_cancel_r n (coxeter A) _ _ [t] (over_one n t Ht)); exact S1).
    assert (Oab : over n (a ++ b')) by (apply (same_over n _ _ _ S3); now apply over_cons).
    rewrite (E_same (s :: v) (a ++ b')) in U1; [|now apply over_cons|apply (same_trans n _ _ (s :: x)); [now apply same_cons|auto]].
    pose proof (E_le _ Oab) as L. rewrite app_length in L. assert (LX : length x = length a + S (length b')) by (rewrite E, app_length; auto). lia.
Qed.

(** *** twisted involutions *)
Notation TI u := (twisted_involution n A f u).
Lemma TI_rev u : TI u -> d u ~ rev u.
Proof.
  intros [O E]. apply (same_cancel_l n (coxeter A) _ _ u O). apply (same_trans n _ _ []); [auto|]. apply same_sym. now apply same_inverse.
Qed.
Lemma TI_of u : over n u -> d u ~ rev u -> TI u.
Proof. intros O E. split; [auto|]. apply (same_trans n _ _ (u ++ rev u)); [now apply same_app_l|now apply same_inverse]. Qed.
Lemma TI_nil : TI [].
Proof. split; [apply over_nil|apply same_refl]. Qed.
Lemma TI_same u v : TI u -> u ~ v -> TI v.
Proof.
  intros [O E] S1. split; [now apply (same_over n _ _ _ S1)|]. apply (same_trans n _ _ (u ++ d u)); [|auto]. apply same_sym. apply same_app; [auto|now apply d_same].
Qed.
Lemma TI_side s u : s < n -> TI u -> ell (u ++ [fs s]) = ell (s :: u).
Proof.
  intros Hs T. pose proof T as [O _]. rewrite <- (E_rev (s :: u)) by now apply over_cons. cbn [rev].
  assert (O1 : over n (u ++ [fs s])) by (apply over_app; split; [auto|now apply over_one, f_lt]). rewrite <- (d_ell (u ++ [fs s]) O1). apply E_same; [now apply d_over|].
  rewrite d_app. apply same_app; [now apply TI_rev|]. cbn. rewrite f_f by auto. apply same_refl.
Qed.
Lemma conj_over s u : s < n -> over n u -> over n (s :: u ++ [fs s]).
Proof. intros Hs O. apply over_cons. split; [auto|]. apply over_app. split; [auto|now apply over_one, f_lt]. Qed.
Lemma TI_conj s u : s < n -> TI u -> TI (s :: u ++ [fs s]).
Proof.
  intros Hs T. pose proof T as [O _]. apply TI_of; [now apply conj_over|]. rewrite d_cons, d_app. cbn [relabel map rev]. rewrite rev_app_distr. cbn [rev app].
  rewrite f_f by auto. apply same_cons, same_snoc. now apply TI_rev.
Qed.
(** the generator commutes with the twisted involution *)
Definition comm (s : nat) (u : list nat) : Prop := s :: u ++ [fs s] ~ u.
Lemma comm_iff s u : s < n -> over n u -> (comm s u <-> s :: u ~ u ++ [fs s]).
Proof.
  intros Hs O. unfold comm. split; intros E.
  - apply (same_trans n _ _ ((s :: u ++ [fs s]) ++ [fs s])); [|now apply same_snoc]. cbn [app]. apply same_cons. rewrite <- app_assoc. apply same_sym. apply same_undo. now apply f_lt.
  - apply (same_trans n _ _ ((u ++ [fs s]) ++ [fs s])); [exact (same_snoc n (coxeter A) (fs s) (s :: u) (u ++ [fs s]) E)|]. rewrite <- app_assoc. apply same_undo. now apply f_lt.
Qed.
Lemma TI_comm s u : s < n -> TI u -> comm s u -> TI (s :: u).
Proof.
  intros Hs T E. pose proof T as [O _]. apply comm_iff in E; auto. apply TI_of; [now apply over_cons|]. rewrite d_cons. cbn [rev].
  apply (same_trans n _ _ (d (u ++ [fs s]) )).
  - rewrite <- d_cons. now apply d_same.
  - rewrite d_app. apply same_app; [now apply TI_rev|]. cbn. rewrite f_f by auto. apply same_refl.
Qed.
Lemma comm_ell s u : s < n -> TI u -> (comm s u <-> ell (s :: u ++ [fs s]) = ell u).
Proof.
  intros Hs T. pose proof T as [O _]. pose proof (f_lt s Hs) as Hf. pose proof (TI_side s u Hs T) as SD. assert (O1 : over n (u ++ [fs s])) by (apply over_app; split; [auto|now apply over_one]).
  assert (O2 : over n (s :: u)) by now apply over_cons.
  split; [intros E; apply E_same; [now apply conj_over|exact E]|]. intros E. apply comm_iff; auto. destruct (E_cons s u Hs O) as [U|U].
  - apply meet; auto; lia.
  - (* u = s v *) assert (M : s :: s :: u ~ (s :: u) ++ [fs s]).
    { apply meet; auto.
      - rewrite (E_same (s :: s :: u) u); [lia|now apply over_cons|now apply undo].
      - cbn [app]. lia.
      - cbn [app]. rewrite (E_same (s :: s :: u ++ [fs s]) (u ++ [fs s])); [lia| |now apply undo]. apply over_cons. split; [auto|now apply conj_over]. }
    apply (same_trans n _ _ (s :: s :: s :: u)); [apply same_cons, same_sym, undo; auto|]. apply (same_trans n _ _ (s :: s :: u ++ [fs s])); [now apply same_cons|now apply undo].
Qed.
Lemma conj_ell s u : s < n -> TI u -> ~ comm s u -> (ell (s :: u) < ell u -> ell u = 2 + ell (s :: u ++ [fs s])) /\ (ell u < ell (s :: u) -> ell (s :: u ++ [fs s]) = 2 + ell u).
Proof.
  intros Hs T N. pose proof T as [O _]. rewrite (comm_ell s u Hs T) in N. pose proof (TI_side s u Hs T) as SD. pose proof (E_cons s u Hs O) as X.
  assert (O1 : over n (u ++ [fs s])) by (apply over_app; split; [auto|now apply over_one, f_lt]). pose proof (E_cons s (u ++ [fs s]) Hs O1) as Y. lia.
Qed.

(** *** traces *)
Notation tr u := (trace n (twisted_action A f u)).
Lemma row_pair s : s < n -> forall k, pairing n A (simple_root s) k = A s k.
Proof.
  intros Hs k. unfold pairing. rewrite (zsum_one n s); auto.
  - unfold simple_root. rewrite Nat.eqb_refl. ring.
  - intros i _ N. unfold simple_root. destruct (Nat.eqb_spec i s); [lia|ring].
Qed.
Lemma trace_same u v : u ~ v -> over n u -> tr u = tr v.
Proof. intros E O. apply zsum_ext. intros j Hj. unfold twisted_action. now apply (reflect_same n A). Qed.
Lemma act_unit_reflect s u j i : act_lin A u = act_lin A u -> reflect_word A (s :: u) (unit_vec j) i =
  (reflect_word A u (unit_vec j) i - (if (s =? j)%nat then 1 else 0) * reflect_word A u (A s) i)%Z.
Proof.
  intros _. rewrite reflect_word_cons. rewrite (reflect_word_ext A u _ (fun k => 1 * (if (k =? j)%nat then 1 else 0) + (- (if (s =? j)%nat then 1 else 0)) * A s k)%Z).
  - rewrite (act_lin A u 1 _ (unit_vec j) (A s)). ring.
  - intros k. unfold reflect. ring.
Qed.
Lemma trace_mult s u : s < n -> tr (s :: u) = (tr u - reflect_word A u (A s) (fs s))%Z.
Proof.
  intros Hs. unfold trace, twisted_action. rewrite (zsum_ext n _ (fun j => reflect_word A u (unit_vec j) (fs j) - (if (j =? s)%nat then reflect_word A u (A s) (fs j) else 0))%Z).
  - rewrite zsum_bump0 by auto. reflexivity.
  - intros j Hj. rewrite act_unit_reflect by auto. rewrite (Nat.eqb_sym s j). destruct (j =? s); lia.
Qed.
Lemma trace_conj s u : s < n -> over n u -> tr (s :: u ++ [fs s]) = tr u.
Proof.
  intros Hs O. pose proof (f_lt s Hs) as Hf. change (s :: u ++ [fs s]) with ((s :: u) ++ [fs s]).
  assert (E1 : tr ((s :: u) ++ [fs s]) = (tr (s :: u) - zsum n (fun j => reflect_word A (s :: u) (unit_vec j) (fs s) * A s j))%Z).
  { unfold trace, twisted_action. rewrite (zsum_ext n _ (fun j => reflect_word A (s :: u) (unit_vec j) (fs j) + (-1) * (reflect_word A (s :: u) (unit_vec j) (fs s) * A s j))%Z).
    - rewrite zsum_add, zsum_mul_l. ring.
    - intros j Hj. rewrite reflect_word_app. cbn [reflect_word fold_left]. unfold reflect at 1. rewrite <- (f_A s j Hs Hj). ring. }
  rewrite E1, trace_mult by auto.
  rewrite (zsum_ext n _ (fun j => A s j * reflect_word A u (unit_vec j) (fs s) - (if (j =? s)%nat then A s j * reflect_word A u (A s) (fs s) else 0))%Z).
  - rewrite zsum_bump0 by auto. rewrite <- (act_expand A n u (A s) (fs s) O Hf). destruct C as [D _]. rewrite (D s Hs). ring.
  - intros j Hj. rewrite act_unit_reflect by auto. rewrite (Nat.eqb_sym s j). destruct (j =? s); ring.
Qed.
Lemma trace_comm s u : s < n -> TI u -> comm s u -> tr (s :: u) = (tr u + (if (ell (s :: u) <? ell u)%nat then 2 else -2))%Z.
Proof.
  intros Hs T E. pose proof T as [O _]. pose proof (f_lt s Hs) as Hf. apply comm_iff in E; auto. rewrite trace_mult by auto.
  rewrite <- (reflect_word_ext A u (pairing n A (simple_root s)) (A s) (row_pair s Hs)). rewrite <- (pair_rw n A u O).
  rewrite (pair_ext n A _ (fun j => (if (ell (s :: u) <? ell u)%nat then -1 else 1) * simple_root (fs s) j)%Z) by (apply (carried n A C ell ELL u s (fs s) Hs Hf O E)).
  unfold pairing. rewrite (zsum_one n (fs s)); auto.
  - unfold simple_root. rewrite Nat.eqb_refl. destruct C as [D _]. rewrite (D _ Hf). destruct (ell (s :: u) <? ell u); lia.
  - intros i _ N. unfold simple_root. destruct (Nat.eqb_spec i (fs s)); lia.
Qed.
(** the quantity that each step changes by 4 *)
Definition potential (u : list nat) : Z := (2 * Z.of_nat (ell u) - tr u)%Z.
Lemma potential_same u v : u ~ v -> over n u -> potential u = potential v.
Proof. intros E O. unfold potential. rewrite (trace_same u v E O). now rewrite (E_same u v). Qed.
Lemma potential_nil : potential [] = (- tr [])%Z.
Proof. unfold potential. rewrite (ell_nil n _ ell ELL). lia. Qed.
Lemma potential_comm s u : s < n -> TI u -> comm s u -> potential (s :: u) = (potential u + (if (ell (s :: u) <? ell u)%nat then -4 else 4))%Z.
Proof.
  intros Hs T E. pose proof T as [O _]. unfold potential. rewrite trace_comm by auto. destruct (Nat.ltb_spec (ell (s :: u)) (ell u)); destruct (E_cons s u Hs O); lia.
Qed.
Lemma potential_conj s u : s < n -> TI u -> potential (s :: u ++ [fs s]) = (potential u + (if eqw (s :: u ++ [fs s]) u then 0 else if (ell (s :: u) <? ell u)%nat then -4 else 4))%Z.
Proof.
  intros Hs T. pose proof T as [O _]. pose proof (conj_over s u Hs O) as O1. unfold potential. rewrite trace_conj by auto. destruct (eqw (s :: u ++ [fs s]) u) eqn:Q.
  - apply EQW in Q; auto. rewrite (E_same _ u); auto. lia.
  - assert (N : ~ comm s u) by (intros X; apply (EQW _ _ O1 O) in X; congruence). destruct (conj_ell s u Hs T N) as [P1 P2].
    destruct (Nat.ltb_spec (ell (s :: u)) (ell u)); destruct (E_cons s u Hs O); lia.
Qed.
End Twist.
