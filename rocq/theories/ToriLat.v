(** Lattices with an involution: the normal form. *)

From Coq Require Import List Arith ZArith Bool Lia.
From Verif Require Import MatModel MatSpec MatProofs MatRing MatLin MatDet RunModel RedModel RedSpec RedProps LatSpec RootForm DatSub ToriSpec.
From Verif Require YvLog.
Import ListNotations.
Local Open Scope Z_scope.

Lemma zsum_delta_l m h j : (j < m)%nat -> zsum m (fun k => delta j k * h k) = h j.
Proof. intros H. rewrite (zsum_one m j); [unfold delta; rewrite Nat.eqb_refl; lia|exact H|]. intros i _ N. unfold delta. destruct (Nat.eqb_spec j i); lia. Qed.
Lemma zsum_delta_r m h j : (j < m)%nat -> zsum m (fun k => h k * delta k j) = h j.
Proof. intros H. rewrite (zsum_one m j); [unfold delta; rewrite Nat.eqb_refl; lia|exact H|]. intros i _ N. unfold delta. destruct (Nat.eqb_spec i j); lia. Qed.
Lemma fapply_ext n f x y i : (forall j, (j < n)%nat -> x j = y j) -> fapply n f x i = fapply n f y i.
Proof. intros H. apply zsum_ext. intros j Hj. rewrite (H j Hj). reflexivity. Qed.
Lemma fapply_add n f x y i : fapply n f (fun j => x j + y j) i = fapply n f x i + fapply n f y i.
Proof. unfold fapply. rewrite <- zsum_add. apply zsum_ext. intros. ring. Qed.
Lemma fapply_scale n f c x i : fapply n f (fun j => c * x j) i = c * fapply n f x i.
Proof. unfold fapply. rewrite <- zsum_mul_l. apply zsum_ext. intros. ring. Qed.
Lemma fapply_fapply n r f B c i : fapply n f (fapply r B c) i = fapply r (fmul n f B) c i.
Proof.
  unfold fapply, fmul. rewrite (zsum_ext n _ (fun j => zsum r (fun k => f i j * B j k * c k))) by (intros j Hj; rewrite <- zsum_mul_l; apply zsum_ext; intros; ring).
  rewrite RootForm.zsum_swap. apply zsum_ext. intros k Hk. rewrite <- zsum_mul_r. apply zsum_ext. intros. ring.
Qed.
Lemma fapply_delta n x i : (i < n)%nat -> fapply n delta x i = x i.
Proof. intros H. apply zsum_delta_l. exact H. Qed.
Lemma fapply_mat n f g x i : (forall j, (j < n)%nat -> f i j = g i j) -> fapply n f x i = fapply n g x i.
Proof. intros H. apply zsum_ext. intros j Hj. rewrite (H j Hj). reflexivity. Qed.

(** ** integer combinations of the vectors of a list *)
Section Gen.
Variable n : nat.
Inductive gen (L : list (nat -> Z)) : (nat -> Z) -> Prop :=
| gen_in v : In v L -> gen L v
| gen_zero : gen L (fun _ => 0)
| gen_add v w : gen L v -> gen L w -> gen L (fun i => v i + w i)
| gen_scale k v : gen L v -> gen L (fun i => k * v i)
| gen_ext v w : gen L v -> (forall i, (i < n)%nat -> v i = w i) -> gen L w.
Definition family (L : list (nat -> Z)) (i j : nat) : Z := nth j L (fun _ => 0) i.
Lemma gen_coeffs L x : gen L x -> exists c, forall i, (i < n)%nat -> x i = fapply (length L) (family L) c i.
Proof.
  intros G. induction G as [v I| |v w _ (c & Hc) _ (d & Hd)|k v _ (c & Hc)|v w _ (c & Hc) E].
  - destruct (In_nth L v (fun _ => 0) I) as (j & Hj & Ej). exists (fun k => delta k j). intros i Hi. unfold fapply. rewrite zsum_delta_r by exact Hj. unfold family. rewrite Ej. reflexivity.
  - exists (fun _ => 0). intros i Hi. unfold fapply. rewrite zsum_zero; [reflexivity|intros; lia].
  - exists (fun j => c j + d j). intros i Hi. rewrite fapply_add, <- Hc, <- Hd by exact Hi. reflexivity.
  - exists (fun j => k * c j). intros i Hi. rewrite fapply_scale, <- Hc by exact Hi. reflexivity.
  - exists c. intros i Hi. rewrite <- E by exact Hi. apply Hc. exact Hi.
Qed.
Lemma gen_sum L k c (v : nat -> nat -> Z) : (forall j, (j < k)%nat -> gen L (fun i => v i j)) -> gen L (fun i => fapply k v c i).
Proof.
  induction k; intros H; [apply gen_zero|].
  apply (gen_ext L (fun i => fapply k v c i + c k * v i k)); [apply gen_add; [apply IHk; intros; apply H; lia|apply gen_scale, H; lia]|].
  intros i Hi. unfold fapply, zsum. cbn [fsum]. ring.
Qed.
(** [n] vectors of which all others are combinations form a basis *)
Lemma finite_choice {A} k (P : nat -> A -> Prop) (d : A) : (forall j, (j < k)%nat -> exists x, P j x) -> exists g, forall j, (j < k)%nat -> P j (g j).
Proof.
  induction k; intros H; [exists (fun _ => d); intros; lia|]. destruct (IHk ltac:(intros; apply H; lia)) as (g & Hg). destruct (H k ltac:(lia)) as (x & Hx).
  exists (fun j => if Nat.eqb j k then x else g j). intros j Hj. destruct (Nat.eqb_spec j k) as [->|N]; [exact Hx|]. apply Hg. lia.
Qed.
Lemma gen_unimodular L : length L = n -> (forall x, gen L x) -> unimodular n (family L).
Proof.
  intros HL H. destruct (finite_choice n (fun j c => forall i, (i < n)%nat -> delta i j = fapply n (family L) c i) (fun _ => 0)) as (h & Hh).
  { intros j Hj. destruct (gen_coeffs L (fun i => delta i j) (H _)) as (c & Hc). exists c. rewrite HL in Hc. exact Hc. }
  assert (E : feq n n (fmul n (family L) (fun i j => h j i)) delta) by (intros i j Hi Hj; rewrite (Hh j Hj i Hi); reflexivity).
  apply unimodular_det. pose proof (det_ext E) as D. rewrite det_fmul, det_delta in D. apply Z.eq_mul_1 in D. exact D.
Qed.
End Gen.

Lemma filter_split {A} (p : A -> bool) l : (length (filter p l) + length (filter (fun x => negb (p x)) l) = length l)%nat.
Proof. induction l as [|x l IH]; [reflexivity|]. cbn. destruct (p x); cbn; lia. Qed.

(** ** every involution has a normal form *)
Section Normal.
Variable n : nat.
Variable f : nat -> nat -> Z.
Hypothesis inv : is_involution n f.
Notation f1 := (fun i j => f i j + delta i j).
Variable r : nat.
Variable dd : nat -> Z.
Variable beta g : nat -> nat -> Z.
Hypothesis rn : (r <= n)%nat.
Hypothesis dpos : forall b, (b < r)%nat -> 0 < dd b.
Hypothesis ig : inverses n beta g.
Hypothesis span : same_span n n f1 r (fun a b => dd b * beta a b).

Lemma plus_fixed a b : (a < n)%nat -> (b < r)%nat -> fmul n f beta a b = beta a b.
Proof. exact (YvLog.beta_fixed n f inv r dd beta rn dpos span a b). Qed.
Lemma low_rows b j : (r <= b < n)%nat -> (j < n)%nat -> fmul n g f1 b j = 0.
Proof. exact (YvLog.g_f1 n f r dd beta g rn ig span b j). Qed.
Definition top (k b : nat) : Z := fmul n g (fmul n f beta) k (r + b)%nat.
(** the involution on the complement *)
Lemma minus_image a b : (a < n)%nat -> (b < n - r)%nat -> fmul n f beta a (r + b)%nat = - beta a (r + b)%nat + zsum r (fun k => beta a k * top k b).
Proof.
  intros Ha Hb. rewrite <- (fmul_id_l n (fmul n f beta) a (r + b)%nat Ha).
  rewrite (fmul_ext_row n delta (fmul n beta g)) by (intros j Hj; symmetry; apply (proj1 ig); auto). rewrite fmul_assoc. unfold fmul at 1.
  replace n with (r + (n - r))%nat at 1 by lia. rewrite zsum_split. rewrite Z.add_comm. f_equal.
  transitivity (zsum (n - r) (fun k => - beta a (r + k)%nat * delta k b)); [|rewrite zsum_delta_r by exact Hb; reflexivity].
  apply zsum_ext. intros k Hk.
  assert (E : fmul n g (fmul n f beta) (r + k)%nat (r + b)%nat = - delta k b); [|rewrite E; ring].
  rewrite <- fmul_assoc. transitivity (fmul n (fmul n g f1) beta (r + k)%nat (r + b)%nat - fmul n g beta (r + k)%nat (r + b)%nat).
  - unfold fmul at 1 3 5. unfold Z.sub. rewrite <- (Z.mul_1_l (- zsum n _)), Z.mul_comm.
    replace (- zsum n (fun j => g (r + k)%nat j * beta j (r + b)%nat) * 1) with (- 1 * zsum n (fun j => g (r + k)%nat j * beta j (r + b)%nat)) by ring.
    rewrite <- zsum_mul_l, <- zsum_add. apply zsum_ext. intros j Hj.
    assert (E2 : fmul n g f1 (r + k)%nat j = fmul n g f (r + k)%nat j + g (r + k)%nat j); [|rewrite E2; ring].
    unfold fmul. rewrite (zsum_ext n _ (fun l => g (r + k)%nat l * f l j + g (r + k)%nat l * delta l j)) by (intros; ring). rewrite zsum_add, zsum_delta_r by exact Hj. reflexivity.
  - assert (E1 : fmul n (fmul n g f1) beta (r + k)%nat (r + b)%nat = 0) by (unfold fmul at 1; apply zsum_zero; intros j Hj; rewrite low_rows by lia; lia).
    rewrite E1, (proj2 ig) by lia. unfold delta. destruct (Nat.eqb_spec (r + k) (r + b)), (Nat.eqb_spec k b); lia.
Qed.

Variable s : nat.
Variable d : nat -> Z.
Variable rho rho' gamma gamma' : nat -> nat -> Z.
Hypothesis irho : inverses r rho rho'.
Hypothesis igamma : inverses (n - r) gamma gamma'.
Hypothesis sr : (s <= r)%nat.
Hypothesis sq : (s <= n - r)%nat.
Hypothesis diag : feq r (n - r) (fmul (n - r) (fmul r rho top) gamma) (fun i j => if ((i =? j) && (i <? s))%nat then d i else 0).

Definition ev (j i : nat) : Z := zsum r (fun k => beta i k * rho' k j).
Definition xv (j i : nat) : Z := zsum (n - r) (fun k => beta i (r + k)%nat * gamma k j).
Definition dj (j : nat) : Z := if (j <? s)%nat then d j else 0.
Lemma ev_fixed j i : (i < n)%nat -> fapply n f (ev j) i = ev j i.
Proof.
  intros Hi. unfold ev. change (fapply n f (fapply r beta (fun k => rho' k j)) i = fapply r beta (fun k => rho' k j) i).
  rewrite fapply_fapply. apply fapply_mat. intros k Hk. apply plus_fixed; auto.
Qed.
Lemma top_gamma k j : (k < r)%nat -> (j < n - r)%nat -> fmul (n - r) top gamma k j = if (j <? s)%nat then rho' k j * d j else 0.
Proof.
  intros Hk Hj. rewrite <- (fmul_id_l r _ k j Hk). rewrite (fmul_ext_row r delta (fmul r rho' rho)) by (intros l Hl; symmetry; apply (proj2 irho); auto).
  rewrite fmul_assoc. rewrite (fmul_ext_col r rho' _ (fun i j => if ((i =? j) && (i <? s))%nat then d i else 0)).
  - unfold fmul. destruct (Nat.ltb_spec j s) as [Q|Q].
    + rewrite (zsum_one r j); [|lia|intros i Hi N; destruct (Nat.eqb_spec i j); cbn; lia]. rewrite Nat.eqb_refl. destruct (Nat.ltb_spec j s); [reflexivity|lia].
    + apply zsum_zero. intros i Hi. destruct (Nat.eqb_spec i j) as [->|]; cbn [andb]; [|lia]. destruct (Nat.ltb_spec j s); lia.
  - intros l Hl. rewrite <- fmul_assoc. apply diag; auto.
Qed.
Lemma xv_image j i : (j < n - r)%nat -> (i < n)%nat -> fapply n f (xv j) i = - xv j i + dj j * ev j i.
Proof.
  intros Hj Hi. unfold xv. change (fapply n f (fapply (n - r) (fun i k => beta i (r + k)%nat) (fun k => gamma k j)) i = - fapply (n - r) (fun i k => beta i (r + k)%nat) (fun k => gamma k j) i + dj j * ev j i).
  rewrite fapply_fapply. unfold fapply at 1.
  rewrite (zsum_ext (n - r) _ (fun k => (-1) * (beta i (r + k)%nat * gamma k j) + zsum r (fun l => beta i l * (top l k * gamma k j)))).
  2:{ intros k Hk. assert (E : fmul n f (fun i k => beta i (r + k)%nat) i k = fmul n f beta i (r + k)%nat) by reflexivity. rewrite E, minus_image by auto.
      rewrite (zsum_ext r (fun l => beta i l * (top l k * gamma k j)) (fun l => (beta i l * top l k) * gamma k j)) by (intros; ring). rewrite zsum_mul_r. ring. }
  rewrite zsum_add, zsum_mul_l. f_equal. rewrite RootForm.zsum_swap. unfold ev. rewrite <- zsum_mul_l. apply zsum_ext. intros l Hl.
  rewrite zsum_mul_l. pose proof (top_gamma l j Hl Hj) as E. unfold fmul in E. rewrite E. unfold dj. destruct (j <? s)%nat; ring.
Qed.
Definition wv (j i : nat) : Z := xv j i - Z.div2 (dj j) * ev j i.
Lemma wv_image j i : (j < n - r)%nat -> (i < n)%nat -> fapply n f (wv j) i = - wv j i + (if Z.odd (dj j) then ev j i else 0).
Proof.
  intros Hj Hi. unfold wv. rewrite (fapply_ext n f _ (fun i => xv j i + (- Z.div2 (dj j)) * ev j i)) by (intros; ring).
  rewrite fapply_add, fapply_scale, xv_image, ev_fixed by auto. pose proof (Z.div2_odd (dj j)) as E. rewrite E at 1. destruct (Z.odd (dj j)); cbn [Z.b2z]; ring.
Qed.
Definition twisted (j : nat) : bool := Z.odd (dj j).
Definition Ul : list (nat -> Z) := map ev (filter (fun j => negb (twisted j)) (seq 0 r)).
Definition Vl : list (nat -> Z) := map wv (filter (fun j => negb (twisted j)) (seq 0 (n - r))).
Definition Wl : list (nat -> Z) := map wv (filter twisted (seq 0 s)).
Definition Wl' : list (nat -> Z) := map (fun j i => fapply n f (wv j) i) (filter twisted (seq 0 s)).
Lemma twisted_high j : (s <= j)%nat -> twisted j = false.
Proof. intros H. unfold twisted, dj. destruct (Nat.ltb_spec j s); [lia|reflexivity]. Qed.
Lemma filter_high m : (s <= m)%nat -> filter twisted (seq 0 m) = filter twisted (seq 0 s).
Proof.
  intros H. replace m with (s + (m - s))%nat by lia. rewrite seq_app, filter_app. assert (E : forall k o, (s <= o)%nat -> filter twisted (seq o k) = []).
  { induction k; intros o Ho; [reflexivity|]. cbn. rewrite twisted_high by lia. apply IHk. lia. }
  rewrite (E (m - s)%nat (0 + s)%nat) by lia. apply app_nil_r.
Qed.
Lemma list_sizes : (length Ul + length Wl = r /\ length Vl + length Wl = n - r /\ length Wl' = length Wl)%nat.
Proof.
  unfold Ul, Vl, Wl, Wl'. rewrite !map_length. pose proof (filter_split twisted (seq 0 r)) as E1. pose proof (filter_split twisted (seq 0 (n - r))) as E2.
  rewrite seq_length, filter_high in E1 by lia. rewrite seq_length, filter_high in E2 by lia. lia.
Qed.
Definition all : list (nat -> Z) := Ul ++ Vl ++ Wl ++ Wl'.
Lemma all_ev j : (j < r)%nat -> gen n all (ev j).
Proof.
  intros Hj. destruct (twisted j) eqn:T.
  - assert (Hs : (j < s)%nat) by (destruct (le_lt_dec s j) as [Q|Q]; [rewrite twisted_high in T by lia; discriminate|exact Q]).
    assert (I : In j (filter twisted (seq 0 s))) by (apply filter_In; split; [apply in_seq; lia|exact T]).
    apply (gen_ext n all (fun i => wv j i + fapply n f (wv j) i)).
    + apply gen_add; apply gen_in; unfold all; rewrite !in_app_iff; right; right; [left; apply in_map; exact I|right; apply (in_map (fun j i => fapply n f (wv j) i)); exact I].
    + intros i Hi. rewrite wv_image by lia. unfold twisted in T. rewrite T. ring.
  - apply gen_in. unfold all. apply in_app_iff. left. unfold Ul. apply in_map. apply filter_In. split; [apply in_seq; lia|rewrite T; reflexivity].
Qed.
Lemma all_wv j : (j < n - r)%nat -> gen n all (wv j).
Proof.
  intros Hj. apply gen_in. unfold all. rewrite !in_app_iff. right. destruct (twisted j) eqn:T; [right|]; left; apply in_map, filter_In; (split; [apply in_seq; cbn|]); auto.
  - split; [lia|]. destruct (le_lt_dec s j) as [Q|Q]; [rewrite twisted_high in T by lia; discriminate|exact Q].
  - split; lia.
  - rewrite T. reflexivity.
Qed.
Lemma all_xv j : (j < n - r)%nat -> gen n all (xv j).
Proof.
  intros Hj. destruct (Z.eq_dec (dj j) 0) as [D|D].
  - apply (gen_ext n all (wv j)); [apply all_wv; exact Hj|]. intros i Hi. unfold wv. rewrite D. cbn. ring.
  - assert (Hs : (j < s)%nat) by (unfold dj in D; destruct (Nat.ltb_spec j s); [auto|lia]).
    apply (gen_ext n all (fun i => wv j i + Z.div2 (dj j) * ev j i)); [apply gen_add; [apply all_wv; exact Hj|apply gen_scale, all_ev; lia]|]. intros i Hi. unfold wv. ring.
Qed.
Lemma all_beta j : (j < n)%nat -> gen n all (fun i => beta i j).
Proof.
  intros Hj. destruct (le_lt_dec r j) as [Q|Q].
  - apply (gen_ext n all (fun i => fapply (n - r) (fun i k => xv k i) (fun k => gamma' k (j - r)%nat) i)); [apply gen_sum; intros k Hk; apply all_xv; exact Hk|].
    intros i Hi. unfold fapply, xv. change (fmul (n - r) (fmul (n - r) (fun i k => beta i (r + k)%nat) gamma) gamma' i (j - r)%nat = beta i j).
    rewrite fmul_assoc, (fmul_ext_col (n - r) _ _ delta) by (intros k Hk; apply (proj1 igamma); lia). rewrite fmul_id_r by lia. f_equal. lia.
  - apply (gen_ext n all (fun i => fapply r (fun i k => ev k i) (fun k => rho k j) i)); [apply gen_sum; intros k Hk; apply all_ev; exact Hk|].
    intros i Hi. unfold fapply, ev. change (fmul r (fmul r beta rho') rho i j = beta i j).
    rewrite fmul_assoc, (fmul_ext_col r _ _ delta) by (intros k Hk; apply (proj2 irho); lia). rewrite fmul_id_r by lia. reflexivity.
Qed.
Lemma all_gen x : gen n all x.
Proof.
  apply (gen_ext n all (fun i => fapply n beta (fapply n g x) i)); [apply gen_sum; intros j Hj; apply all_beta; exact Hj|].
  intros i Hi. rewrite fapply_fapply, (fapply_mat n _ delta) by (intros j Hj; apply (proj1 ig); auto). apply fapply_delta. exact Hi.
Qed.
Lemma normal_splits : splits n f (length Ul) (length Vl) (length Wl).
Proof.
  destruct list_sizes as (S1 & S2 & S3). exists (family all). split; [lia|].
  assert (La : length all = n) by (unfold all; rewrite !app_length; lia).
  split; [apply gen_unimodular; [exact La|exact all_gen]|]. split; [|split].
  - intros j Hj i Hi. change (fapply n f (nth j all (fun _ => 0%Z)) i = nth j all (fun _ => 0%Z) i). unfold all. rewrite app_nth1 by exact Hj.
    unfold Ul in *. rewrite map_length in Hj. rewrite (nth_indep _ _ (ev 0)) by (rewrite map_length; exact Hj). rewrite map_nth. apply ev_fixed. exact Hi.
  - intros j Hj i Hi. change (fapply n f (nth j all (fun _ => 0%Z)) i = - nth j all (fun _ => 0%Z) i). unfold all. rewrite app_nth2, app_nth1 by lia.
    assert (Hk : (j - length Ul < length Vl)%nat) by lia. revert Hk. generalize (j - length Ul)%nat as k. intros k Hk. unfold Vl in *. rewrite map_length in Hk.
    rewrite (nth_indep _ _ (wv 0)) by (rewrite map_length; exact Hk). rewrite map_nth. pose proof (nth_In _ 0%nat Hk) as I. apply filter_In in I as (I & T). apply in_seq in I.
    rewrite wv_image by lia. unfold twisted in T. destruct (Z.odd _); [discriminate|]. ring.
  - intros j Hj i Hi. change (fapply n f (nth j all (fun _ => 0%Z)) i = nth (j + length Wl) all (fun _ => 0%Z) i). unfold all.
    rewrite (app_nth2 Ul), (app_nth2 Vl), app_nth1 by lia. rewrite (app_nth2 Ul), (app_nth2 Vl), (app_nth2 Wl) by lia.
    replace (j + length Wl - length Ul - length Vl - length Wl)%nat with (j - length Ul - length Vl)%nat by lia.
    assert (Hk : (j - length Ul - length Vl < length Wl)%nat) by lia. revert Hk. generalize (j - length Ul - length Vl)%nat as k. intros k Hk. unfold Wl, Wl' in *. rewrite map_length in Hk.
    rewrite (nth_indep _ _ (wv 0)) by (rewrite map_length; exact Hk). rewrite map_nth.
    rewrite (nth_indep _ (fun _ => 0) ((fun j i => fapply n f (wv j) i) 0%nat)) by (rewrite map_length; exact Hk). rewrite (map_nth (fun j i => fapply n f (wv j) i)). reflexivity.
Qed.
End Normal.

Lemma splits_exist n f : is_involution n f -> exists a b c, splits n f a b c.
Proof.
  intros H. destruct (mx_any n n (fun i j => f i j + delta i j)) as (M & HM).
  pose proof (C49_adapted_basis (fun _ => true) (fun z => z) (fun z => eq_refl) n n _ M HM) as G.
  destruct (adapted_basis (fun _ => true) (fun z => z) M) as [[B dg]|e]; [|destruct G as (_ & z & Q); discriminate].
  destruct G as (r & dd & beta & _ & _ & Rn & _ & Dp & (g & Ig) & Sp).
  destruct (rank_cases r (n - r) (top n f r beta g)) as (s & d & rho & gamma & (rho' & I1) & (gamma' & I2) & L1 & L2 & E & _).
  exists (length (Ul r beta s d rho')), (length (Vl n r beta s d rho' gamma)), (length (Wl n r beta s d rho' gamma)).
  exact (normal_splits n f H r dd beta g Rn Dp Ig Sp s d rho rho' gamma gamma' I1 I2 L1 L2 E).
Qed.
