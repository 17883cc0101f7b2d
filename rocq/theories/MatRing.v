(** Matrices over a commutative ring: sums, inverses of unitriangular matrices. *)

From Coq Require Import List Arith ZArith Lia Bool Ring Ring_theory.
From Verif Require Import VecModel VecProofs PermProofs RunModel RunProofs MatModel MatSpec MatProofs MatArith.
Import ListNotations.
Open Scope nat_scope.

Section Ring.
Context {A : Type} (zero one : A) (add mul sub : A -> A -> A) (opp : A -> A).
Hypothesis RT : ring_theory zero one add mul sub opp (@eq A).
Add Ring Aring : RT.
Notation sum := (fsum add zero).
Infix "+!" := add (at level 50, left associativity).
Infix "*!" := mul (at level 40, left associativity).

Lemma fsum_ext n x y : (forall i, i < n -> x i = y i) -> sum n x = sum n y.
Proof. induction n as [|n IH]; cbn; intros H; [reflexivity|]. rewrite IH by (intros; apply H; lia). rewrite H by lia. reflexivity. Qed.
Lemma fsum_zero n x : (forall i, i < n -> x i = zero) -> sum n x = zero.
Proof. induction n as [|n IH]; cbn; intros H; [reflexivity|]. rewrite IH by (intros; apply H; lia). rewrite H by lia. ring. Qed.
Lemma fsum_add n x y : sum n (fun i => x i +! y i) = sum n x +! sum n y.
Proof. induction n as [|n IH]; cbn; [ring|]. rewrite IH. ring. Qed.
Lemma fsum_mul_l n c x : sum n (fun i => c *! x i) = c *! sum n x.
Proof. induction n as [|n IH]; cbn; [ring|]. rewrite IH. ring. Qed.
Lemma fsum_mul_r n c x : sum n (fun i => x i *! c) = sum n x *! c.
Proof. induction n as [|n IH]; cbn; [ring|]. rewrite IH. ring. Qed.
Lemma fsum_swap m n (x : nat -> nat -> A) : sum m (fun i => sum n (x i)) = sum n (fun j => sum m (fun i => x i j)).
Proof.
  induction m as [|m IH]; cbn; [symmetry; apply fsum_zero; reflexivity|]. rewrite IH. rewrite <- fsum_add. reflexivity.
Qed.
Lemma fsum_one n k x : k < n -> (forall i, i < n -> i <> k -> x i = zero) -> sum n x = x k.
Proof.
  induction n as [|n IH]; cbn; intros Hk H; [lia|]. destruct (Nat.eq_dec k n) as [->|ne].
  - rewrite fsum_zero by (intros; apply H; lia). ring.
  - rewrite IH by (try lia; intros; apply H; lia). rewrite (H n) by lia. ring.
Qed.
Lemma fsum_split n m x : sum (n + m) x = sum n x +! sum m (fun i => x (n + i)).
Proof. induction m as [|m IH]; rewrite ?Nat.add_0_r; cbn; [ring|]. rewrite Nat.add_succ_r. cbn. rewrite IH. ring. Qed.

(** products of matrices as functions *)
Definition pmul n (f g : nat -> nat -> A) (i k : nat) : A := sum n (fun j => f i j *! g j k).
Definition pid (i j : nat) : A := if i =? j then one else zero.
Lemma pmul_assoc n p f g h i l : pmul p (pmul n f g) h i l = pmul n f (pmul p g h) i l.
Proof.
  unfold pmul. rewrite (fsum_ext p _ (fun j => sum n (fun k => f i k *! g k j *! h j l))).
  2:{ intros. rewrite fsum_mul_r. reflexivity. }
  rewrite fsum_swap. apply fsum_ext. intros j Hj. rewrite <- fsum_mul_l. apply fsum_ext. intros. ring.
Qed.
Lemma pmul_id_l n g i k : i < n -> pmul n pid g i k = g i k.
Proof.
  intros H. unfold pmul, pid. rewrite (fsum_one n i) by (try lia; intros; nb; ring). rewrite Nat.eqb_refl. ring.
Qed.
Lemma pmul_id_r n f i k : k < n -> pmul n f pid i k = f i k.
Proof.
  intros H. unfold pmul, pid. rewrite (fsum_one n k) by (try lia; intros; nb; ring). rewrite Nat.eqb_refl. ring.
Qed.
Lemma pmul_ext n m p f f' g g' : feq m n f f' -> feq n p g g' -> feq m p (pmul n f g) (pmul n f' g').
Proof. intros Hf Hg i j Hi Hj. apply fsum_ext. intros k Hk. rewrite Hf, Hg by assumption. reflexivity. Qed.
(** a left and a right inverse agree *)
Lemma pinv_unique n f g h : feq n n (pmul n f g) pid -> feq n n (pmul n g h) pid -> feq n n f h.
Proof.
  intros H1 H2 i j Hi Hj. rewrite <- (pmul_id_r n f i j Hj), <- (pmul_id_l n h i j Hi).
  transitivity (pmul n f (pmul n g h) i j).
  - unfold pmul at 1 2. apply fsum_ext. intros k Hk. rewrite H2 by assumption. reflexivity.
  - rewrite <- pmul_assoc. unfold pmul at 1 3. apply fsum_ext. intros k Hk. rewrite H1 by assumption. reflexivity.
Qed.

Section Tri.
Context {E : err -> Prop} (R : arith A).
Hypothesis HR : arith_ok R add sub mul opp E.
Hypothesis H0 : a0 R = zero.
Hypothesis H1 : a1 R = one.
Implicit Types (M P : matrix A) (f g h : nat -> nat -> A).

Lemma sum_down n x (body : nat -> A -> res A) :
  (forall i c, i < n -> gives (body i c) (eq (c +! x i)) E) ->
  gives (downto n body zero) (eq (sum n x)) E.
Proof.
  intros H. apply (gives_downto (fun t c => c = sum (n - t) (fun i => x (t + i)))).
  - rewrite Nat.sub_diag. reflexivity.
  - intros i c Hi ->. eapply gives_mono; [apply H; exact Hi|]. intros ? <-.
    replace (n - i) with (1 + (n - S i)) by lia. rewrite fsum_split. cbn [fsum]. rewrite Nat.add_0_r.
    rewrite (fsum_ext _ (fun i0 => x (i + (1 + i0))) (fun i0 => x (S i + i0))) by (intros; f_equal; lia). ring.
  - intros c ->. rewrite Nat.sub_0_r. apply fsum_ext. reflexivity.
Qed.

Definition upper n f := forall i j, i < n -> j < i -> f i j = zero.
Definition lower n f := forall i j, j < n -> i < j -> f i j = zero.
Definition unit_diag n f := forall i, i < n -> f i i = one.

(** what the functions compute; entries on the other side are not looked at *)
Lemma upper_rec M n f : is_mx M n n f -> unit_diag n f ->
  gives (inverse_upper_triangular R M) (fun P => exists g, is_mx P n n g /\ upper n g /\ unit_diag n g /\
    forall i j, j < n -> i < j -> g i j = opp (sum (j - i) (fun k => f i (S (i + k)) *! g (S (i + k)) j))) E.
Proof.
  intros HM Hu. unfold inverse_upper_triangular. rewrite (is_mx_rows _ _ _ _ HM), (is_mx_cols _ _ _ _ HM), Nat.eqb_refl. cbn [negb].
  apply (gives_upto0 (fun t P => exists g, is_mx P n n g /\ upper n g /\ unit_diag t g /\
    (forall i j, t <= j < n -> g i j = zero) /\
    forall i j, j < t -> i < j -> g i j = opp (sum (j - i) (fun k => f i (S (i + k)) *! g (S (i + k)) j)))).
  - exists (fun _ _ => zero). rewrite H0. split; [apply fill_ok|]. split; [intros ? ? ? ?; reflexivity|].
    split; [intros i Hi; lia|]. split; [reflexivity|]. intros; lia.
  - intros j P Hj (g & HP & Ug & Dg & Zg & Rg).
    eapply bind_mget; [exact HM|exact Hj|exact Hj|]. rewrite (Hu j Hj).
    destruct (aeqb R one (a1 R)) eqn:Ee.
    2:{ rewrite H1 in Ee. rewrite (proj2 (ok_eqb _ _ _ _ _ _ HR one one) eq_refl) in Ee. discriminate. }
    cbn [negb]. eapply bind_mput; [exact HP|exact Hj|exact Hj|]. intros P' HP'. rewrite H1 in HP'.
    apply (gives_downto (fun t P => exists g', is_mx P n n g' /\
       (forall a b, b < n -> b <> j -> g' a b = g a b) /\ g' j j = one /\ (forall a, j < a < n \/ a < t -> g' a j = zero) /\
       (forall a, t <= a < j -> g' a j = opp (sum (j - a) (fun k => f a (S (a + k)) *! g' (S (a + k)) j))))).
    + exists (upd g j j one). split; [exact HP'|]. unfold upd. split; [intros; nb|]. split; [nb|].
      split; [|intros; lia]. intros a Ha. destruct (Nat.eqb_spec a j); [lia|]. cbn [andb]. destruct Ha; [apply Ug; lia|].
      apply Zg. lia.
    + clear P' HP'. intros i P' Hi (g' & HP' & Oth & Dj & Zj & Rj).
      eapply gives_bind. { rewrite H0. apply (sum_down (j - i) (fun k => f i (S (i + k)) *! g' (S (i + k)) j)).
        intros k c Hk. eapply bind_mget; [exact HM|lia|lia|]. eapply bind_mget; [exact HP'|lia|lia|].
        apply (bind_mul R add sub mul opp HR). apply (gives_add R add sub mul opp HR). reflexivity. }
      intros s <-. apply (bind_opp R add sub mul opp HR).
      eapply gives_mput; [exact HP'|lia|lia|]. intros P'' HP''. eexists. split; [exact HP''|].
      unfold upd. split; [intros a b Hb1 Hb; destruct (Nat.eqb_spec b j); [lia|]; rewrite andb_false_r; apply Oth; assumption|].
      split; [destruct (Nat.eqb_spec j i); [lia|]; exact Dj|].
      split. { intros a Ha. destruct (Nat.eqb_spec a i); [lia|]. cbn [andb]. apply Zj. lia. }
      intros a Ha. rewrite (fsum_ext (j - a) (fun k => f a (S (a + k)) *! _) (fun k => f a (S (a + k)) *! g' (S (a + k)) j)).
      2:{ intros k Hk. f_equal. destruct (Nat.eqb_spec (S (a + k)) i); [lia|]. reflexivity. }
      destruct (Nat.eqb_spec a i) as [->|ne]; [rewrite Nat.eqb_refl; reflexivity|]. cbn [andb]. apply Rj. lia.
    + intros P'' (g' & HP'' & Oth & Dj & Zj & Rj). exists g'. split; [exact HP''|].
      split. { intros a b Ha Hb. destruct (Nat.eq_dec b j) as [->|]; [apply Zj; lia|]. rewrite Oth by lia. apply Ug; assumption. }
      split. { intros a Ha. destruct (Nat.eq_dec a j) as [->|]; [exact Dj|]. rewrite Oth by lia. apply Dg. lia. }
      split. { intros a b Hb. rewrite Oth by lia. apply Zg. lia. }
      intros a b Hb Hab. destruct (Nat.eq_dec b j) as [->|]; [apply Rj; lia|]. rewrite Oth by lia.
      rewrite (fsum_ext (b - a) (fun k => f a (S (a + k)) *! g' (S (a + k)) b) (fun k => f a (S (a + k)) *! g (S (a + k)) b)) by (intros; rewrite Oth by lia; reflexivity).
      apply Rg; lia.
  - intros P (g & HP & Ug & Dg & _ & Rg). exists g. auto.
Qed.
Lemma lower_rec M n f : is_mx M n n f -> unit_diag n f ->
  gives (inverse_lower_triangular R M) (fun P => exists g, is_mx P n n g /\ lower n g /\ unit_diag n g /\
    forall i j, i < n -> j < i -> g i j = opp (sum (i - j) (fun k => g i (S (j + k)) *! f (S (j + k)) j))) E.
Proof.
  intros HM Hu. unfold inverse_lower_triangular. rewrite (is_mx_rows _ _ _ _ HM), (is_mx_cols _ _ _ _ HM), Nat.eqb_refl. cbn [negb].
  apply (gives_upto0 (fun t P => exists g, is_mx P n n g /\ lower n g /\ unit_diag t g /\
    (forall i j, t <= i < n -> g i j = zero) /\
    forall i j, i < t -> j < i -> g i j = opp (sum (i - j) (fun k => g i (S (j + k)) *! f (S (j + k)) j)))).
  - exists (fun _ _ => zero). rewrite H0. split; [apply fill_ok|]. split; [intros ? ? ? ?; reflexivity|].
    split; [intros i Hi; lia|]. split; [reflexivity|]. intros; lia.
  - intros i P Hi (g & HP & Ug & Dg & Zg & Rg).
    eapply bind_mget; [exact HM|exact Hi|exact Hi|]. rewrite (Hu i Hi).
    destruct (aeqb R one (a1 R)) eqn:Ee.
    2:{ rewrite H1 in Ee. rewrite (proj2 (ok_eqb _ _ _ _ _ _ HR one one) eq_refl) in Ee. discriminate. }
    cbn [negb]. eapply bind_mput; [exact HP|exact Hi|exact Hi|]. intros P' HP'. rewrite H1 in HP'.
    apply (gives_downto (fun t P => exists g', is_mx P n n g' /\
       (forall a b, a < n -> a <> i -> g' a b = g a b) /\ g' i i = one /\ (forall b, i < b < n \/ b < t -> g' i b = zero) /\
       (forall b, t <= b < i -> g' i b = opp (sum (i - b) (fun k => g' i (S (b + k)) *! f (S (b + k)) b))))).
    + exists (upd g i i one). split; [exact HP'|]. unfold upd. split; [intros; nb|]. split; [nb|].
      split; [|intros; lia]. intros b Hb. destruct (Nat.eqb_spec b i); [lia|]. rewrite andb_false_r. destruct Hb; [apply Ug; lia|].
      apply Zg. lia.
    + clear P' HP'. intros j P' Hj (g' & HP' & Oth & Dj & Zj & Rj).
      eapply gives_bind. { rewrite H0. apply (sum_down (i - j) (fun k => g' i (S (j + k)) *! f (S (j + k)) j)).
        intros k c Hk. eapply bind_mget; [exact HP'|lia|lia|]. eapply bind_mget; [exact HM|lia|lia|].
        apply (bind_mul R add sub mul opp HR). apply (gives_add R add sub mul opp HR). reflexivity. }
      intros s <-. apply (bind_opp R add sub mul opp HR).
      eapply gives_mput; [exact HP'|lia|lia|]. intros P'' HP''. eexists. split; [exact HP''|].
      unfold upd. split; [intros a b Hb1 Hb; destruct (Nat.eqb_spec a i); [lia|]; apply Oth; assumption|].
      split; [destruct (Nat.eqb_spec i j); [lia|]; rewrite andb_false_r; exact Dj|].
      split. { intros a Ha. destruct (Nat.eqb_spec a j); [lia|]. rewrite andb_false_r. apply Zj. lia. }
      intros b Hb. rewrite (fsum_ext (i - b) (fun k => _ *! f (S (b + k)) b) (fun k => g' i (S (b + k)) *! f (S (b + k)) b)).
      2:{ intros k Hk. f_equal. destruct (Nat.eqb_spec (S (b + k)) j); [lia|]. rewrite andb_false_r. reflexivity. }
      destruct (Nat.eqb_spec b j) as [->|ne]; [rewrite Nat.eqb_refl; reflexivity|]. rewrite andb_false_r. apply Rj. lia.
    + intros P'' (g' & HP'' & Oth & Dj & Zj & Rj). exists g'. split; [exact HP''|].
      split. { intros a b Hb Ha. destruct (Nat.eq_dec a i) as [->|]; [apply Zj; lia|]. rewrite Oth by lia. apply Ug; assumption. }
      split. { intros a Ha. destruct (Nat.eq_dec a i) as [->|]; [exact Dj|]. rewrite Oth by lia. apply Dg. lia. }
      split. { intros a b Hb. rewrite Oth by lia. apply Zg. lia. }
      intros a b Ha Hab. destruct (Nat.eq_dec a i) as [->|]; [apply Rj; lia|]. rewrite Oth by lia.
      rewrite (fsum_ext (a - b) (fun k => g' a (S (b + k)) *! f (S (b + k)) b) (fun k => g a (S (b + k)) *! f (S (b + k)) b)) by (intros; rewrite Oth by lia; reflexivity).
      apply Rg; lia.
  - intros P (g & HP & Ug & Dg & _ & Rg). exists g. auto.
Qed.
(** failure on non-square matrices, and when a diagonal entry differs from 1 *)
Lemma upper_throws_shape M m n f : is_mx M m n f -> m <> n -> inverse_upper_triangular R M = Fail Thrown.
Proof. intros HM H. unfold inverse_upper_triangular. rewrite (is_mx_rows _ _ _ _ HM), (is_mx_cols _ _ _ _ HM). nb. Qed.
Lemma lower_throws_shape M m n f : is_mx M m n f -> m <> n -> inverse_lower_triangular R M = Fail Thrown.
Proof. intros HM H. unfold inverse_lower_triangular. rewrite (is_mx_rows _ _ _ _ HM), (is_mx_cols _ _ _ _ HM). nb. Qed.
(** upper triangular times upper triangular, as a sum from the diagonal on *)
Lemma upper_pmul n f g i j : upper n f -> upper n g -> unit_diag n f -> i < n -> j < n -> 
  pmul n f g i j = if j <? i then zero else g i j +! sum (j - i) (fun k => f i (S (i + k)) *! g (S (i + k)) j).
Proof.
  intros Uf Ug Df Hi Hj. unfold pmul. destruct (Nat.ltb_spec j i) as [L|L].
  - apply fsum_zero. intros k Hk. destruct (Nat.ltb_spec k i); [rewrite Uf by lia; ring|]. rewrite Ug by lia. ring.
  - replace n with (i + (S (j - i) + (n - S j))) by lia. rewrite !fsum_split.
    rewrite (fsum_zero i) by (intros k Hk; rewrite Uf by lia; ring).
    rewrite (fsum_zero (n - S j)) by (intros k Hk; rewrite (Ug (i + (S (j - i) + k))) by lia; ring).
    change (S (j - i)) with (1 + (j - i)). rewrite fsum_split. cbn [fsum]. rewrite Nat.add_0_r, Df by lia.
    rewrite (fsum_ext (j - i) (fun i0 => f i (i + (1 + i0)) *! g (i + (1 + i0)) j) (fun k => f i (S (i + k)) *! g (S (i + k)) j)).
    + ring.
    + intros k Hk. replace (i + (1 + k)) with (S (i + k)) by lia. reflexivity.
Qed.
Lemma upper_right n f g : upper n f -> unit_diag n f -> upper n g -> unit_diag n g ->
  (forall i j, j < n -> i < j -> g i j = opp (sum (j - i) (fun k => f i (S (i + k)) *! g (S (i + k)) j))) ->
  feq n n (pmul n f g) pid.
Proof.
  intros Uf Df Ug Dg H i j Hi Hj. rewrite upper_pmul by assumption. unfold pid.
  destruct (Nat.ltb_spec j i); [nb|]. destruct (Nat.eqb_spec i j) as [->|].
  - rewrite Nat.sub_diag, Dg by lia. cbn. ring.
  - rewrite H by lia. ring.
Qed.
Lemma pmul_transpose n f g i j : pmul n (fun a b => g b a) (fun a b => f b a) i j = pmul n f g j i.
Proof. apply fsum_ext. intros. ring. Qed.
Lemma lower_left n f g : lower n f -> unit_diag n f -> lower n g -> unit_diag n g ->
  (forall i j, i < n -> j < i -> g i j = opp (sum (i - j) (fun k => g i (S (j + k)) *! f (S (j + k)) j))) ->
  feq n n (pmul n g f) pid.
Proof.
  intros Lf Df Lg Dg H i j Hi Hj. rewrite <- (pmul_transpose n g f j i).
  rewrite (upper_right n (fun a b => f b a) (fun a b => g b a)); try assumption.
  - unfold pid. rewrite Nat.eqb_sym. reflexivity.
  - intros a b Ha Hb. apply Lf; assumption.
  - intros a b Ha Hb. apply Lg; assumption.
  - intros a b Hb Hab. rewrite H by lia. f_equal. apply fsum_ext. intros. ring.
Qed.
End Tri.

(** exact arithmetic *)
Definition pure_arith (eqb : A -> A -> bool) : arith A :=
  mk_arith zero one (fun x y => Ok (add x y)) (fun x y => Ok (sub x y)) (fun x y => Ok (mul x y)) (fun x => Ok (opp x)) eqb.
Lemma pure_ok eqb : (forall x y, eqb x y = true <-> x = y) -> arith_ok (pure_arith eqb) add sub mul opp (fun _ => False).
Proof. intros H. split; intros; try reflexivity. apply H. Qed.
Lemma mx_of n (f : nat -> nat -> A) : exists M, is_mx M n n f.
Proof.
  exists (mk_mat n n (map (fun p => f (p / n) (p mod n)) (seq 0 (n * n)))). repeat split.
  - cbn. rewrite map_length, seq_length. reflexivity.
  - cbn. intros i j Hi Hj. destruct (index_div n n i j Hi Hj) as [E1 E2].
    unfold get. rewrite nth_error_map. change (nth_error (seq 0 (n * n)) (i * n + j)) with (get (seq 0 (n * n)) (i * n + j)).
    rewrite get_seq. pose proof (mul_lt i j n n Hi Hj). destruct (Nat.ltb_spec (i * n + j) (n * n)); [|lia]. cbn [option_map Nat.add].
    rewrite E1, E2. reflexivity.
Qed.
Lemma upper_exists (eqb : A -> A -> bool) n f : (forall x y, eqb x y = true <-> x = y) -> upper n f -> unit_diag n f -> exists g, upper n g /\ unit_diag n g /\ feq n n (pmul n f g) pid.
Proof.
  intros He Uf Df. destruct (mx_of n f) as [M HM].
  pose proof (upper_rec (pure_arith eqb) (pure_ok eqb He) eq_refl eq_refl M n f HM Df) as G.
  destruct (inverse_upper_triangular (pure_arith eqb) M) as [P|e]; cbn in G; [|contradiction].
  destruct G as (g & _ & Ug & Dg & Rg). exists g. split; [exact Ug|]. split; [exact Dg|]. apply upper_right; assumption.
Qed.
Lemma upper_left n f g (eqb : A -> A -> bool) : (forall x y, eqb x y = true <-> x = y) -> upper n f -> unit_diag n f -> upper n g -> unit_diag n g ->
  feq n n (pmul n f g) pid -> feq n n (pmul n g f) pid.
Proof.
  intros He Uf Df Ug Dg H. destruct (upper_exists eqb n g He Ug Dg) as (h & _ & _ & Hh).
  pose proof (pinv_unique n f g h H Hh) as Eq. intros i j Hi Hj.
  rewrite (pmul_ext n n n g g f h (fun _ _ _ _ => eq_refl) Eq) by assumption. apply Hh; assumption.
Qed.

Section Main.
Context {E : err -> Prop} (R : arith A).
Hypothesis HR : arith_ok R add sub mul opp E.
Hypothesis H0 : a0 R = zero.
Hypothesis H1 : a1 R = one.
Lemma upper_inverse M n f : is_mx M n n f -> upper n f -> unit_diag n f ->
  gives (inverse_upper_triangular R M) (fun P => exists g, is_mx P n n g /\ upper n g /\
     feq n n (pmul n f g) pid /\ feq n n (pmul n g f) pid) E.
Proof.
  intros HM Uf Df. eapply gives_mono; [apply (upper_rec R HR H0 H1 M n f HM Df)|]. intros P (g & HP & Ug & Dg & Rg).
  exists g. split; [exact HP|]. split; [exact Ug|]. assert (C := upper_right n f g Uf Df Ug Dg Rg). split; [exact C|].
  apply (upper_left n f g (aeqb R)); auto. apply (ok_eqb _ _ _ _ _ _ HR).
Qed.
Lemma lower_inverse M n f : is_mx M n n f -> lower n f -> unit_diag n f ->
  gives (inverse_lower_triangular R M) (fun P => exists g, is_mx P n n g /\ lower n g /\
     feq n n (pmul n f g) pid /\ feq n n (pmul n g f) pid) E.
Proof.
  intros HM Lf Df. eapply gives_mono; [apply (lower_rec R HR H0 H1 M n f HM Df)|]. intros P (g & HP & Lg & Dg & Rg).
  exists g. split; [exact HP|]. split; [exact Lg|]. assert (C := lower_left n f g Lf Df Lg Dg Rg). split; [|exact C].
  intros i j Hi Hj. rewrite <- (pmul_transpose n f g j i).
  rewrite (upper_left n (fun a b => f b a) (fun a b => g b a) (aeqb R)); try assumption.
  - unfold pid. rewrite Nat.eqb_sym. reflexivity.
  - apply (ok_eqb _ _ _ _ _ _ HR).
  - intros a b Ha Hb. apply Lf; assumption.
  - intros a b Ha Hb. apply Lg; assumption.
  - intros a b Ha Hb. rewrite (pmul_transpose n g f a b). rewrite C by assumption. unfold pid. rewrite Nat.eqb_sym. reflexivity.
Qed.
(** the first diagonal entry other than 1 makes the functions throw, unless overflow comes first *)
Lemma upper_throws M n f i : is_mx M n n f -> i < n -> f i i <> one ->
  gives (inverse_upper_triangular R M) (fun _ => False) (fun e => e = Thrown \/ E e).
Proof.
  intros HM Hi Hne. unfold inverse_upper_triangular. rewrite (is_mx_rows _ _ _ _ HM), (is_mx_cols _ _ _ _ HM), Nat.eqb_refl. cbn [negb].
  assert (HR' : arith_ok R add sub mul opp (fun e => e = Thrown \/ E e)).
  { destruct HR as [K1 K2 K3 K4 K5]. split; intros; try apply K5; (eapply gives_mono_err; [|eauto]; auto). }
  apply (gives_upto0 (fun t P => (exists g, is_mx P n n g) /\ t <= i)).
  - split; [eexists; apply fill_ok|lia].
  - intros j P Hj ((g & HP) & Lt). eapply bind_mget; [exact HM|exact Hj|exact Hj|].
    destruct (aeqb R (f j j) (a1 R)) eqn:Ee; cbn [negb]; [|left; reflexivity].
    apply (ok_eqb _ _ _ _ _ _ HR) in Ee. rewrite H1 in Ee. assert (j <> i) by congruence.
    eapply bind_mput; [exact HP|exact Hj|exact Hj|]. intros P' HP'.
    eapply gives_mono with (P := fun P => exists g, is_mx P n n g); [|intros ? ?; split; [assumption|lia]].
    apply (gives_downto (fun _ P => exists g, is_mx P n n g)); [eauto| |auto].
    clear P' HP'. intros a P' Ha (g' & HP').
    eapply gives_bind with (P := fun _ => True).
    { apply (gives_downto (fun _ _ => True)); auto. intros k s Hk _. eapply bind_mget; [exact HM|lia|lia|]. eapply bind_mget; [exact HP'|lia|lia|].
      apply (bind_mul R add sub mul opp HR'). apply (gives_add R add sub mul opp HR'). exact I. }
    intros s _. apply (bind_opp R add sub mul opp HR'). eapply gives_mput; [exact HP'|lia|lia|]. eauto.
  - intros P (_ & L). lia.
Qed.
Lemma lower_throws M n f i : is_mx M n n f -> i < n -> f i i <> one ->
  gives (inverse_lower_triangular R M) (fun _ => False) (fun e => e = Thrown \/ E e).
Proof.
  intros HM Hi Hne. unfold inverse_lower_triangular. rewrite (is_mx_rows _ _ _ _ HM), (is_mx_cols _ _ _ _ HM), Nat.eqb_refl. cbn [negb].
  assert (HR' : arith_ok R add sub mul opp (fun e => e = Thrown \/ E e)).
  { destruct HR as [K1 K2 K3 K4 K5]. split; intros; try apply K5; (eapply gives_mono_err; [|eauto]; auto). }
  apply (gives_upto0 (fun t P => (exists g, is_mx P n n g) /\ t <= i)).
  - split; [eexists; apply fill_ok|lia].
  - intros j P Hj ((g & HP) & Lt). eapply bind_mget; [exact HM|exact Hj|exact Hj|].
    destruct (aeqb R (f j j) (a1 R)) eqn:Ee; cbn [negb]; [|left; reflexivity].
    apply (ok_eqb _ _ _ _ _ _ HR) in Ee. rewrite H1 in Ee. assert (j <> i) by congruence.
    eapply bind_mput; [exact HP|exact Hj|exact Hj|]. intros P' HP'.
    eapply gives_mono with (P := fun P => exists g, is_mx P n n g); [|intros ? ?; split; [assumption|lia]].
    apply (gives_downto (fun _ P => exists g, is_mx P n n g)); [eauto| |auto].
    clear P' HP'. intros a P' Ha (g' & HP').
    eapply gives_bind with (P := fun _ => True).
    { apply (gives_downto (fun _ _ => True)); auto. intros k s Hk _. eapply bind_mget; [exact HP'|lia|lia|]. eapply bind_mget; [exact HM|lia|lia|].
      apply (bind_mul R add sub mul opp HR'). apply (gives_add R add sub mul opp HR'). exact I. }
    intros s _. apply (bind_opp R add sub mul opp HR'). eapply gives_mput; [exact HP'|lia|lia|]. eauto.
  - intros P (_ & L). lia.
Qed.
End Main.
End Ring.
