(** Linear algebra on integer matrices given as functions. *)

From Coq Require Import List Arith ZArith Lia Bool Ring_theory.
From Verif Require Import VecModel VecProofs PermModel PermSpec PermProofs PermCycles RunModel RunProofs MatModel MatSpec MatProofs MatRing MatDet RedSpec.
Import ListNotations.
Open Scope nat_scope.

Notation Zth := InitialRing.Zth.
Notation zring L := (L Z 0%Z 1%Z Z.add Z.mul Z.sub Z.opp Zth) (only parsing).

Lemma zsum_ext n x y : (forall i, i < n -> x i = y i) -> zsum n x = zsum n y.
Proof. apply fsum_ext. Qed.
Lemma zsum_zero n x : (forall i, i < n -> x i = 0%Z) -> zsum n x = 0%Z.
Proof. exact (zring (@fsum_zero) n x). Qed.
Lemma zsum_one n k x : k < n -> (forall i, i < n -> i <> k -> x i = 0%Z) -> zsum n x = x k.
Proof. exact (zring (@fsum_one) n k x). Qed.
Lemma zsum_split n m x : zsum (n + m) x = (zsum n x + zsum m (fun i => x (n + i)%nat))%Z.
Proof. exact (zring (@fsum_split) n m x). Qed.
Lemma zsum_add n x y : zsum n (fun i => x i + y i)%Z = (zsum n x + zsum n y)%Z.
Proof. exact (zring (@fsum_add) n x y). Qed.
Lemma zsum_mul_l n c x : zsum n (fun i => c * x i)%Z = (c * zsum n x)%Z.
Proof. exact (zring (@fsum_mul_l) n c x). Qed.
Lemma zsum_mul_r n c x : zsum n (fun i => x i * c)%Z = (zsum n x * c)%Z.
Proof. exact (zring (@fsum_mul_r) n c x). Qed.
Lemma zsum_div n d x : (forall i, i < n -> (d | x i)%Z) -> (d | zsum n x)%Z.
Proof.
  induction n as [|n IH]; intros H; [apply Z.divide_0_r|]. apply Z.divide_add_r; [apply IH; intros; apply H; lia|apply H; lia].
Qed.
Lemma fmul_assoc n p f g h i l : fmul p (fmul n f g) h i l = fmul n f (fmul p g h) i l.
Proof. exact (zring (@pmul_assoc) n p f g h i l). Qed.
Lemma fmul_id_l n g i k : i < n -> fmul n delta g i k = g i k.
Proof. exact (zring (@pmul_id_l) n g i k). Qed.
Lemma fmul_id_r n f i k : k < n -> fmul n f delta i k = f i k.
Proof. exact (zring (@pmul_id_r) n f i k). Qed.
Lemma fmul_ext n m p f f' g g' : feq m n f f' -> feq n p g g' -> feq m p (fmul n f g) (fmul n f' g').
Proof. intros Hf Hg i j Hi Hj. apply zsum_ext. intros k Hk. rewrite Hf, Hg by assumption. reflexivity. Qed.
Lemma fmul_ext_row n f f' g i k : (forall j, j < n -> f i j = f' i j) -> fmul n f g i k = fmul n f' g i k.
Proof. intros H. apply zsum_ext. intros j Hj. rewrite H by assumption. reflexivity. Qed.
Lemma fmul_ext_col n f g g' i k : (forall j, j < n -> g j k = g' j k) -> fmul n f g i k = fmul n f g' i k.
Proof. intros H. apply zsum_ext. intros j Hj. rewrite H by assumption. reflexivity. Qed.
Lemma feq_refl {A} m n (f : nat -> nat -> A) : feq m n f f.
Proof. intros i j _ _. reflexivity. Qed.
Lemma feq_sym {A} m n (f g : nat -> nat -> A) : feq m n f g -> feq m n g f.
Proof. intros H i j Hi Hj. symmetry. auto. Qed.
Lemma feq_trans {A} m n (f g h : nat -> nat -> A) : feq m n f g -> feq m n g h -> feq m n f h.
Proof. intros H1 H2 i j Hi Hj. rewrite H1 by assumption. auto. Qed.
Lemma fmul_transpose n f g i j : fmul n (fun a b => g b a) (fun a b => f b a) i j = fmul n f g j i.
Proof. apply zsum_ext. intros. lia. Qed.

Lemma unimodular_ext n f g : feq n n f g -> unimodular n f -> unimodular n g.
Proof. rewrite !unimodular_det. intros H. rewrite (det_ext H). auto. Qed.
Lemma unimodular_mul n f g : unimodular n f -> unimodular n g -> unimodular n (fmul n f g).
Proof. rewrite !unimodular_det, det_fmul. intros [-> | ->] [-> | ->]; auto. Qed.
Lemma unimodular_transpose n f : unimodular n f -> unimodular n (fun i j => f j i).
Proof. rewrite !unimodular_det, (det_transpose n f). auto. Qed.
Lemma unimodular_delta n : unimodular n delta.
Proof. apply unimodular_det. rewrite det_delta. auto. Qed.

Lemma sgn_xor a b : sgn (xorb a b) = (sgn a * sgn b)%Z.
Proof. destruct a, b; reflexivity. Qed.
Lemma sgn_unimodular n f b : det n f = sgn b -> unimodular n f.
Proof. intros H. apply unimodular_det. rewrite H. destruct b; auto. Qed.

(** embedded blocks *)
Lemma embed_in o r g i j : o <= i < o + r -> o <= j < o + r -> embed o r g i j = g (i - o) (j - o).
Proof. intros. unfold embed. nb. Qed.
Lemma embed_out o r g i j : ~ (o <= i < o + r) \/ ~ (o <= j < o + r) -> embed o r g i j = delta i j.
Proof. intros. unfold embed. nb. Qed.
Lemma delta_ne i j : i <> j -> delta i j = 0%Z.
Proof. intros. unfold delta. nb. Qed.
Lemma delta_eq i : delta i i = 1%Z.
Proof. unfold delta. nb. Qed.
Lemma det_embed o r t g : det (o + (r + t)) (embed o r g) = det r g.
Proof.
  rewrite det_block.
  2:{ intros i j Hi Hj. rewrite embed_out by lia. apply delta_ne. lia. }
  rewrite (det_ext (n := o) (g := delta)). 2:{ intros i j Hi Hj. apply embed_out. lia. }
  rewrite det_delta, Z.mul_1_l.
  rewrite (det_ext (n := r + t) (g := embed 0 r g)).
  2:{ intros i j Hi Hj. unfold embed. nb; try (unfold delta; nb); try (f_equal; lia). }
  rewrite det_block. 2:{ intros i j Hi Hj. rewrite embed_out by lia. apply delta_ne. lia. }
  rewrite (det_ext (n := r) (g := g)). 2:{ intros i j Hi Hj. rewrite embed_in by lia. rewrite !Nat.sub_0_r. reflexivity. }
  rewrite (det_ext (n := t) (g := delta)). 2:{ intros i j Hi Hj. rewrite embed_out by lia. unfold delta. nb. }
  rewrite det_delta. lia.
Qed.
Lemma det_embed' n o r g : o + r <= n -> det n (embed o r g) = det r g.
Proof. intros H. replace n with (o + (r + (n - o - r))) by lia. apply det_embed. Qed.
(** a sum that only runs over part of the range *)
Lemma zsum_range n o r x : o + r <= n -> (forall i, i < n -> ~ (o <= i < o + r) -> x i = 0%Z) ->
  zsum n x = zsum r (fun k => x (o + k)).
Proof.
  intros H Z. replace n with (o + (r + (n - o - r))) by lia. rewrite !zsum_split.
  rewrite (zsum_zero o) by (intros; apply Z; lia). rewrite (zsum_zero (n - o - r)) by (intros; apply Z; lia). lia.
Qed.
Lemma fmul_embed_r n o r f g a b : o + r <= n -> b < n ->
  fmul n f (embed o r g) a b = (if (o <=? b) && (b <? o + r) then zsum r (fun l => (f a (o + l)%nat * g l (b - o)%nat)%Z) else f a b).
Proof.
  intros H Hb. unfold fmul. destruct ((o <=? b) && (b <? o + r)) eqn:C.
  - assert (o <= b < o + r) by (apply andb_true_iff in C; destruct C as [C1 C2]; apply Nat.leb_le in C1; apply Nat.ltb_lt in C2; lia).
    rewrite (zsum_range n o r) by (try lia; intros i Hi Ho; rewrite embed_out by lia; rewrite delta_ne by lia; lia).
    apply zsum_ext. intros k Hk. rewrite embed_in by lia. replace (o + k - o) with k by lia. reflexivity.
  - assert (~ (o <= b < o + r)) by (apply andb_false_iff in C; destruct C as [C|C]; [apply Nat.leb_gt in C|apply Nat.ltb_ge in C]; lia).
    rewrite (zsum_one n b) by (try lia; intros i Hi Ho; rewrite embed_out by lia; rewrite delta_ne by lia; lia).
    rewrite embed_out by lia. rewrite delta_eq. lia.
Qed.
Lemma fmul_embed_l n o r f g a b : o + r <= n -> a < n ->
  fmul n (embed o r g) f a b = (if (o <=? a) && (a <? o + r) then zsum r (fun k => (g (a - o)%nat k * f (o + k)%nat b)%Z) else f a b).
Proof.
  intros H Ha. rewrite <- (fmul_transpose n (embed o r g) f b a).
  rewrite (fmul_ext_col n (fun a b => f b a) _ (embed o r (fun i j => g j i))).
  2:{ intros j Hj. unfold embed. nb; unfold delta; nb. }
  rewrite fmul_embed_r by assumption. destruct ((o <=? a) && (a <? o + r)); [|reflexivity]. apply zsum_ext. intros. lia.
Qed.

(** rotation of the columns l,...,c by one place *)
Definition rotate (l c : nat) (f : nat -> nat -> Z) (a b : nat) : Z :=
  f a (if b <? l then b else if b <? c then S b else if b =? c then l else b).
Lemma det_rotate n l c f : l <= c -> c < n -> det n (rotate l c f) = (sgn (Nat.odd (c - l)) * det n f)%Z.
Proof.
  intros L. remember (c - l) as d eqn:E. revert c L E. induction d as [|d IH]; intros c L E Hc.
  - rewrite (det_ext (g := f)); [change (Nat.odd 0) with false; cbn [sgn]; lia|]. intros i j Hi Hj. unfold rotate. f_equal. nb.
  - rewrite (det_ext (g := fun a b => rotate l (c - 1) f a (if b =? c - 1 then c else if b =? c then c - 1 else b))).
    + rewrite (@det_colswap n (rotate l (c - 1) f) (c - 1) c) by lia. rewrite IH by lia.
      rewrite Nat.odd_succ, <- Nat.negb_odd. destruct (Nat.odd d); cbn [sgn negb]; lia.
    + intros i j Hi Hj. unfold rotate. f_equal. nb.
Qed.

(** permutation of the columns *)
Lemma nth_get (p : list nat) i x : get p i = Some x -> nth i p 0 = x.
Proof. intros H. apply nth_error_nth. exact H. Qed.
Lemma det_perm_aux n f : forall t p, is_perm n p -> (forall i, t <= i < n -> get p i = Some i) -> t <= n ->
  det n (fun a b => f a (nth b p 0)) = (sgn (Nat.odd (inversions p)) * det n f)%Z.
Proof.
  induction t as [|t IH]; intros p P F L.
  - assert (p = seq 0 n) as ->.
    { apply vec_ext; [rewrite seq_length; apply P|]. intros i Hi. rewrite (proj1 P) in Hi. rewrite F, get_seq by lia. nb. }
    rewrite inversions_seq. rewrite (det_ext (g := f)); [change (Nat.odd 0) with false; cbn [sgn]; lia|].
    intros i j Hi Hj. f_equal. apply nth_get. rewrite get_seq. nb.
  - destruct (perm_surj n p P t ltac:(lia)) as (i & Gi & Li).
    assert (i <= t). { destruct (Nat.le_gt_cases i t); [assumption|]. rewrite F in Gi by lia. injection Gi. lia. }
    destruct (Nat.eq_dec i t) as [->|ne].
    { apply IH; [exact P| |lia]. intros j Hj. destruct (Nat.eq_dec j t) as [->|]; [exact Gi|]. apply F. lia. }
    destruct (vswap_spec p i t) as (w & _ & Lw & Gw); [rewrite (proj1 P); lia|rewrite (proj1 P); lia|].
    destruct (swap_parity p w i t) as [Nw Pw]; [apply P|lia|rewrite (proj1 P); lia|rewrite (proj1 P); lia|exact Lw|exact Gw|].
    assert (Pm : is_perm n w).
    { split; [rewrite Lw; apply P|]. split; [exact Nw|]. intros x Hx. destruct (In_get _ _ Hx) as [k Gk]. rewrite Gw in Gk.
      apply (proj2 (proj2 P)). destruct (k =? t); [|destruct (k =? i)]; eapply get_In; exact Gk. }
    rewrite (det_ext (g := fun a b => (fun a b => f a (nth b w 0)) a (if b =? t then i else if b =? i then t else b))).
    + rewrite (@det_colswap n (fun a b => f a (nth b w 0)) t i) by lia. rewrite (IH w Pm); [|intros j Hj|lia].
      * rewrite Pw. destruct (Nat.odd (inversions p)); cbn [sgn negb]; lia.
      * rewrite Gw. destruct (Nat.eqb_spec j t) as [->|]; [exact Gi|]. destruct (Nat.eqb_spec j i); [lia|]. apply F. lia.
    + intros a b Ha Hb. cbv beta. f_equal. destruct (get_some p b) as [y Gy]; [rewrite (proj1 P); exact Hb|].
      rewrite (nth_get _ _ _ Gy). symmetry. apply nth_get. rewrite Gw.
      destruct (Nat.eqb_spec b t) as [->|]; [destruct (Nat.eqb_spec i t); [lia|]; rewrite Nat.eqb_refl; exact Gy|].
      destruct (Nat.eqb_spec b i) as [->|]; [rewrite Nat.eqb_refl; exact Gy|].
      destruct (Nat.eqb_spec b t); [lia|]. destruct (Nat.eqb_spec b i); [lia|]. exact Gy.
Qed.
Lemma det_perm n f p : is_perm n p -> det n (fun a b => f a (nth b p 0)) = (sgn (Nat.odd (inversions p)) * det n f)%Z.
Proof. intros P. apply (det_perm_aux n f n p P); [intros; lia|lia]. Qed.
