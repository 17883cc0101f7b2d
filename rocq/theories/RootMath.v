(** Roots obtained from the simple ones by going up: every positive root is one of them. *)

From Coq Require Import List Arith ZArith Bool Lia.
From Verif Require Import MatSpec MatLin LieTypeSpec RootSpec.
Import ListNotations.
Local Open Scope Z_scope.

(** ** Vectors *)
Lemma co_map (f : nat -> Z) m k : (k < m)%nat -> co (map f (seq 0 m)) k = f k.
Proof.
  intros H. unfold co. rewrite (nth_indep _ 0 (f 0%nat)) by (rewrite map_length, seq_length; lia).
  rewrite map_nth, seq_nth by lia. reflexivity.
Qed.
Lemma co_over v k : (length v <= k)%nat -> co v k = 0.
Proof. intros H. apply nth_overflow. exact H. Qed.
Lemma vec_ext v w : length v = length w -> (forall k, (k < length v)%nat -> co v k = co w k) -> v = w.
Proof. intros L H. apply (nth_ext v w 0 0 L). exact H. Qed.
Lemma bump_length v i z : length (bump v i z) = length v.
Proof. unfold bump. rewrite map_length, seq_length. reflexivity. Qed.
Lemma co_bump v i z k : (i < length v)%nat -> co (bump v i z) k = if Nat.eqb k i then co v k + z else co v k.
Proof.
  intros H. destruct (lt_dec k (length v)) as [L|L].
  - unfold bump. rewrite co_map by lia. reflexivity.
  - rewrite (co_over (bump v i z)) by (rewrite bump_length; lia). rewrite (co_over v) by lia.
    destruct (Nat.eqb_spec k i); [lia|reflexivity].
Qed.
Lemma basis_length n i : length (basis n i) = n.
Proof. unfold basis. rewrite map_length, seq_length. reflexivity. Qed.
Lemma co_basis n i k : (i < n)%nat -> co (basis n i) k = if Nat.eqb k i then 1 else 0.
Proof.
  intros H. destruct (lt_dec k n) as [L|L].
  - unfold basis. rewrite co_map by lia. reflexivity.
  - rewrite co_over by (rewrite basis_length; lia). destruct (Nat.eqb_spec k i); [lia|reflexivity].
Qed.
Lemma opp_length v : length (opp v) = length v. Proof. apply map_length. Qed.
Lemma co_opp v k : co (opp v) k = - co v k.
Proof. unfold co, opp. change 0 with (- 0) at 1. apply map_nth. Qed.
Lemma opp_opp v : opp (opp v) = v.
Proof. apply vec_ext; [rewrite !opp_length; reflexivity|]. intros k _. rewrite !co_opp. lia. Qed.
Lemma height_zsum v : height v = zsum (length v) (co v).
Proof.
  induction v as [|x v IH] using rev_ind; [reflexivity|]. unfold height. rewrite fold_right_app. cbn [fold_right].
  rewrite app_length. cbn [length]. replace (length v + 1)%nat with (S (length v)) by lia. unfold zsum. cbn [fsum]. fold zsum.
  assert (E : co (v ++ [x]) (length v) = x) by (unfold co; rewrite app_nth2, Nat.sub_diag by lia; reflexivity).
  assert (F : fold_right Z.add (x + 0) v = height v + x).
  { clear. unfold height. induction v as [|y v IH]; cbn; lia. }
  rewrite F, IH. rewrite E. f_equal. apply zsum_ext. intros i Hi. unfold co. rewrite app_nth1 by lia. reflexivity.
Qed.
Lemma zsum_bump n f g i z : (i < n)%nat -> (forall k, (k < n)%nat -> f k = g k + (if Nat.eqb k i then z else 0)) -> zsum n f = zsum n g + z.
Proof.
  intros Hi H. rewrite (zsum_ext n f (fun k => g k + (if Nat.eqb k i then z else 0)) H), zsum_add. f_equal.
  rewrite (zsum_one n i); [rewrite Nat.eqb_refl; reflexivity|exact Hi|]. intros k _ N. rewrite (proj2 (Nat.eqb_neq _ _) N). reflexivity.
Qed.
Lemma height_bump v i z : (i < length v)%nat -> height (bump v i z) = height v + z.
Proof.
  intros H. rewrite !height_zsum, bump_length. apply (zsum_bump _ _ _ i); [exact H|]. intros k Hk. rewrite co_bump by exact H.
  destruct (Nat.eqb k i); lia.
Qed.
Lemma height_basis n i : (i < n)%nat -> height (basis n i) = 1.
Proof.
  intros H. rewrite height_zsum, basis_length, (zsum_one n i); [rewrite co_basis, Nat.eqb_refl by exact H; reflexivity|exact H|].
  intros k _ N. rewrite co_basis by exact H. rewrite (proj2 (Nat.eqb_neq _ _) N). reflexivity.
Qed.
Lemma bump_bump_same v i x y : (i < length v)%nat -> bump (bump v i x) i y = bump v i (x + y).
Proof.
  intros H. apply vec_ext; [rewrite !bump_length; reflexivity|]. intros k _. rewrite !co_bump by (rewrite ?bump_length; exact H).
  destruct (Nat.eqb k i); lia.
Qed.
Lemma bump_comm v i j x y : (i < length v)%nat -> (j < length v)%nat -> bump (bump v i x) j y = bump (bump v j y) i x.
Proof.
  intros H K. apply vec_ext; [rewrite !bump_length; reflexivity|]. intros k _.
  rewrite !co_bump by (rewrite ?bump_length; assumption). destruct (Nat.eqb k i), (Nat.eqb k j); lia.
Qed.
Lemma bump_0 v i : (i < length v)%nat -> bump v i 0 = v.
Proof. intros H. apply vec_ext; [apply bump_length|]. intros k _. rewrite co_bump by exact H. destruct (Nat.eqb k i); lia. Qed.
Lemma zsum_nonneg n f : (forall k, (k < n)%nat -> 0 <= f k) -> 0 <= zsum n f.
Proof.
  unfold zsum. induction n as [|n IH]; intros H; cbn; [lia|]. pose proof (H n ltac:(lia)).
  assert (0 <= fsum Z.add 0 n f) by (apply IH; intros; apply H; lia). lia.
Qed.
Lemma zsum_ge n f k : (k < n)%nat -> (forall k, (k < n)%nat -> 0 <= f k) -> f k <= zsum n f.
Proof.
  unfold zsum. induction n as [|n IH]; intros L H; [lia|]. cbn. pose proof (zsum_nonneg n f ltac:(intros; apply H; lia)) as Z0.
  unfold zsum in Z0. destruct (Nat.eq_dec k n) as [->|N]; [lia|]. pose proof (H n ltac:(lia)).
  assert (f k <= fsum Z.add 0 n f) by (apply IH; [lia|intros; apply H; lia]). lia.
Qed.

Section Up.
Variable n : nat.
Variable C : nat -> nat -> Z.
Notation pair := (pairing n C).
Notation sr := (sreflect n C).

Lemma sr_length i v : length (sr i v) = length v.
Proof. apply bump_length. Qed.
Lemma co_sr i v k : (i < length v)%nat -> co (sr i v) k = if Nat.eqb k i then co v k - pair v i else co v k.
Proof. intros H. unfold sreflect. rewrite co_bump by exact H. destruct (Nat.eqb k i); lia. Qed.
Lemma pair_bump v i z j : (i < n)%nat -> length v = n -> pair (bump v i z) j = pair v j + z * C i j.
Proof.
  intros H L. unfold pairing. apply (zsum_bump _ _ _ i); [exact H|]. intros k Hk. rewrite co_bump by lia.
  destruct (Nat.eqb_spec k i) as [->|N]; lia.
Qed.
Lemma pair_basis k i : (k < n)%nat -> pair (basis n k) i = C k i.
Proof.
  intros H. unfold pairing. rewrite (zsum_one n k); [|exact H|].
  - rewrite co_basis, Nat.eqb_refl by exact H. lia.
  - intros j _ N. rewrite co_basis by exact H. rewrite (proj2 (Nat.eqb_neq _ _) N). lia.
Qed.
Lemma pair_opp v i : pair (opp v) i = - pair v i.
Proof.
  unfold pairing. replace (- zsum n (fun j => co v j * C j i)) with (-1 * zsum n (fun j => co v j * C j i)) by lia. rewrite <- zsum_mul_l.
  apply zsum_ext. intros j _. rewrite co_opp. lia.
Qed.
Lemma sr_opp i v : (i < length v)%nat -> sr i (opp v) = opp (sr i v).
Proof.
  intros H. apply vec_ext; [rewrite sr_length, !opp_length, sr_length; reflexivity|]. intros k _.
  rewrite co_opp, !co_sr, !co_opp, pair_opp by (rewrite ?opp_length; exact H). destruct (Nat.eqb k i); lia.
Qed.

Hypothesis cart : Cartan_like n C.
Let diag i : (i < n)%nat -> C i i = 2 := proj1 cart i.
Lemma pair_sr_self i v : (i < n)%nat -> length v = n -> pair (sr i v) i = - pair v i.
Proof. intros H L. unfold sreflect. rewrite pair_bump by assumption. rewrite diag by exact H. lia. Qed.
Lemma sr_sr i v : (i < n)%nat -> length v = n -> sr i (sr i v) = v.
Proof.
  intros H L. unfold sreflect at 1. rewrite pair_sr_self by assumption. unfold sreflect. rewrite bump_bump_same by lia.
  replace (_ + _) with 0 by lia. apply bump_0. lia.
Qed.
Lemma sr_basis i : (i < n)%nat -> sr i (basis n i) = opp (basis n i).
Proof.
  intros H. apply vec_ext; [rewrite sr_length, opp_length; reflexivity|]. intros k _.
  rewrite co_sr by (rewrite basis_length; exact H). rewrite co_opp, pair_basis, diag, co_basis by exact H. destruct (Nat.eqb k i); lia.
Qed.

(** going up from the simple roots *)
Inductive up : list Z -> Prop :=
| up_simple i : (i < n)%nat -> up (basis n i)
| up_reflect i v : (i < n)%nat -> up v -> pair v i < 0 -> up (sr i v).

Lemma up_length v : up v -> length v = n.
Proof. induction 1; [apply basis_length|rewrite sr_length; assumption]. Qed.
Lemma up_nonneg v : up v -> nonneg v.
Proof.
  induction 1 as [i H|i v H U IH P]; intros k.
  - rewrite co_basis by exact H. destruct (Nat.eqb k i); lia.
  - rewrite co_sr by (rewrite up_length; assumption). specialize (IH k). destruct (Nat.eqb k i); lia.
Qed.
Lemma up_height v : up v -> 1 <= height v.
Proof.
  induction 1 as [i H|i v H U IH P]; [rewrite height_basis; lia|].
  unfold sreflect. rewrite height_bump by (rewrite up_length; assumption). lia.
Qed.
Lemma up_cases v : up v -> (exists i, (i < n)%nat /\ v = basis n i) \/
  exists i u, (i < n)%nat /\ up u /\ pair u i < 0 /\ v = sr i u /\ pair v i > 0 /\ height u < height v.
Proof.
  intros [i H|i u H U P]; [left; exists i; split; [exact H|reflexivity]|]. right. exists i, u. pose proof (up_length _ U) as L.
  split; [exact H|]. split; [exact U|]. split; [exact P|]. split; [reflexivity|].
  rewrite pair_sr_self by assumption. unfold sreflect. rewrite height_bump by lia. lia.
Qed.
Lemma up_height_1 v : up v -> height v = 1 -> exists i, (i < n)%nat /\ v = basis n i.
Proof.
  intros U H. destruct (up_cases v U) as [S|(i & u & _ & U' & _ & _ & _ & L)]; [exact S|]. pose proof (up_height u U'). lia.
Qed.

Hypothesis small : forall i j, (i < n)%nat -> (j < n)%nat -> i <> j -> C i j * C j i <= 3.

(** the plane through [v] in the directions i and j *)
Section Plane.
Variables (i j : nat).
Hypotheses (Hi : (i < n)%nat) (Hj : (j < n)%nat) (N : i <> j).
Variable v : list Z.
Hypothesis L : length v = n.
Definition pl (x y : Z) : list Z := bump (bump v i x) j y.
Lemma pl_length x y : length (pl x y) = n. Proof. unfold pl. rewrite !bump_length. exact L. Qed.
Lemma pl_0 : v = pl 0 0. Proof. unfold pl. rewrite !bump_0; rewrite ?bump_length; lia || reflexivity. Qed.
Lemma pair_pl_i x y : pair (pl x y) i = pair v i + 2 * x + y * C j i.
Proof. unfold pl. rewrite !pair_bump by (rewrite ?bump_length; assumption). rewrite (diag i) by exact Hi. lia. Qed.
Lemma pair_pl_j x y : pair (pl x y) j = pair v j + x * C i j + 2 * y.
Proof. unfold pl. rewrite !pair_bump by (rewrite ?bump_length; assumption). rewrite (diag j) by exact Hj. lia. Qed.
Lemma sr_pl_i x y : sr i (pl x y) = pl (x - (pair v i + 2 * x + y * C j i)) y.
Proof.
  unfold sreflect. rewrite pair_pl_i. unfold pl. rewrite bump_comm by (rewrite ?bump_length; lia). rewrite bump_bump_same by lia.
  f_equal. 
Qed.
Lemma sr_pl_j x y : sr j (pl x y) = pl x (y - (pair v j + x * C i j + 2 * y)).
Proof. unfold sreflect. rewrite pair_pl_j. unfold pl. rewrite bump_bump_same by (rewrite bump_length; lia). f_equal. Qed.
Lemma height_pl x y : height (pl x y) = height v + x + y.
Proof. unfold pl. rewrite !height_bump by (rewrite ?bump_length; lia). lia. Qed.

Hypothesis IH : forall u k, up u -> height u < height v -> (k < n)%nat -> u <> basis n k -> 0 < pair u k -> up (sr k u).
Lemma down_i x y x' : up (pl x y) -> x + y < 0 -> 0 < pair v i + 2 * x + y * C j i -> 
  (2 = pair v i + 2 * x + y * C j i -> C i j <> pair v j + x * C i j + 2 * y) ->
  x' = x - (pair v i + 2 * x + y * C j i) -> up (pl x' y).
Proof.
  intros U H P S ->. rewrite <- sr_pl_i. apply IH; [exact U|rewrite height_pl; lia|exact Hi| |rewrite pair_pl_i; exact P].
  intros E. pose proof (pair_pl_i x y) as A. pose proof (pair_pl_j x y) as B. rewrite E, pair_basis in A, B by exact Hi.
  rewrite diag in A by exact Hi. exact (S A B).
Qed.
Lemma down_j x y y' : up (pl x y) -> x + y < 0 -> 0 < pair v j + x * C i j + 2 * y ->
  (2 = pair v j + x * C i j + 2 * y -> C j i <> pair v i + 2 * x + y * C j i) ->
  y' = y - (pair v j + x * C i j + 2 * y) -> up (pl x y').
Proof.
  intros U H P S ->. rewrite <- sr_pl_j. apply IH; [exact U|rewrite height_pl; lia|exact Hj| |rewrite pair_pl_j; exact P].
  intros E. pose proof (pair_pl_i x y) as A. pose proof (pair_pl_j x y) as B. rewrite E, pair_basis in A, B by exact Hj.
  rewrite diag in B by exact Hj. exact (S B A).
Qed.
Lemma up_i x y x' : up (pl x y) -> pair v i + 2 * x + y * C j i < 0 -> x' = x - (pair v i + 2 * x + y * C j i) -> up (pl x' y).
Proof. intros U P ->. rewrite <- sr_pl_i. apply up_reflect; [exact Hi|exact U|rewrite pair_pl_i; exact P]. Qed.
Lemma up_j x y y' : up (pl x y) -> pair v j + x * C i j + 2 * y < 0 -> y' = y - (pair v j + x * C i j + 2 * y) -> up (pl x y').
Proof. intros U P ->. rewrite <- sr_pl_j. apply up_reflect; [exact Hj|exact U|rewrite pair_pl_j; exact P]. Qed.

Lemma pl_cast x y x' y' : up (pl x y) -> x = x' -> y = y' -> up (pl x' y').
Proof. intros U -> ->. exact U. Qed.
Ltac move_x D := match goal with U : up (pl ?x ?y) |- _ =>
  let U' := fresh "U" in eassert (U' : up (pl _ y)) by (eapply (D x y); [exact U|lia..|reflexivity]); clear U end.
Ltac move_y D := match goal with U : up (pl ?x ?y) |- _ =>
  let U' := fresh "U" in eassert (U' : up (pl x _)) by (eapply (D x y); [exact U|lia..|reflexivity]); clear U end.
Ltac at_end := match goal with U : up (pl ?x ?y) |- _ => refine (pl_cast _ _ _ _ U _ _); lia end.

(** from s_j(v) up and both values positive, s_i(v) is reached *)
Lemma plane_closed : 0 < pair v i -> 0 < pair v j -> up (sr j v) -> up (sr i v).
Proof.
  intros A B U. remember (pair v i) as a eqn:Ea. remember (pair v j) as b eqn:Eb.
  assert (U1 : up (pl 0 (- b))).
  { rewrite pl_0, sr_pl_j in U. rewrite <- Eb in U. replace (0 - (b + 0 * C i j + 2 * 0)) with (- b) in U by lia. exact U. }
  assert (G : sr i v = pl (- a) 0).
  { rewrite pl_0 at 1. rewrite sr_pl_i, <- Ea. f_equal. lia. }
  rewrite G.
  pose proof (proj1 (proj2 cart) i j Hi Hj N) as Np. pose proof (proj1 (proj2 cart) j i Hj Hi ltac:(congruence)) as Nq.
  pose proof (proj2 (proj2 cart) i j Hi Hj) as Z1. pose proof (proj2 (proj2 cart) j i Hj Hi) as Z2. pose proof (small i j Hi Hj N) as Sm.
  assert (K : (C i j = 0 /\ C j i = 0) \/ (C i j = -1 /\ C j i = -1) \/ (C i j = -1 /\ C j i = -2) \/ (C i j = -2 /\ C j i = -1) \/
              (C i j = -1 /\ C j i = -3) \/ (C i j = -3 /\ C j i = -1)) by nia.
  assert (Di : forall x y x', up (pl x y) -> x + y < 0 -> 0 < a + 2 * x + y * C j i -> 
    (2 = a + 2 * x + y * C j i -> C i j <> b + x * C i j + 2 * y) -> x' = x - (a + 2 * x + y * C j i) -> up (pl x' y)) by (rewrite Ea, Eb; exact down_i).
  assert (Dj : forall x y y', up (pl x y) -> x + y < 0 -> 0 < b + x * C i j + 2 * y ->
    (2 = b + x * C i j + 2 * y -> C j i <> a + 2 * x + y * C j i) -> y' = y - (b + x * C i j + 2 * y) -> up (pl x y')) by (rewrite Ea, Eb; exact down_j).
  assert (Ai : forall x y x', up (pl x y) -> a + 2 * x + y * C j i < 0 -> x' = x - (a + 2 * x + y * C j i) -> up (pl x' y)) by (rewrite Ea; exact up_i).
  assert (Aj : forall x y y', up (pl x y) -> b + x * C i j + 2 * y < 0 -> y' = y - (b + x * C i j + 2 * y) -> up (pl x y')) by (rewrite Eb; exact up_j).
  assert (F : pl 0 (- b) <> basis n i -> C j i = -1 -> up (pl (- a - b) (- b))).
  { intros E Eq. assert (Q : sr i (pl 0 (- b)) = pl (- a - b) (- b)) by (rewrite sr_pl_i, <- Ea, Eq; f_equal; lia). rewrite <- Q.
    apply IH; [exact U1|rewrite height_pl; lia|exact Hi|exact E|rewrite pair_pl_i, <- Ea, Eq; lia]. }
  clear G U Np Nq Z1 Z2 Sm.
  destruct K as [[E1 E2]|[[E1 E2]|[[E1 E2]|[[E1 E2]|[[E1 E2]|[E1 E2]]]]]]; rewrite ?E1, ?E2 in Di; rewrite ?E1, ?E2 in Dj; rewrite ?E2 in Ai; rewrite ?E1 in Aj.
  - move_x Di. move_y Aj. at_end.
  - destruct (list_eq_dec Z.eq_dec (pl 0 (- b)) (basis n i)) as [E|E].
    + assert (V : pl (- a) 0 = basis n j).
      { pose proof (pair_pl_i 0 (- b)) as P1. pose proof (pair_pl_j 0 (- b)) as P2. rewrite E, pair_basis in P1, P2 by exact Hi.
        rewrite (diag i Hi) in P1. 
        rewrite <- Ea, E2 in P1. rewrite <- Eb, E1 in P2. assert (a = 1 /\ b = 1) as [Y1 Y2] by (split; lia). rewrite Y2 in E.
        apply vec_ext; [rewrite pl_length, basis_length; reflexivity|]. intros k _. assert (Q : co (pl 0 (- (1))) k = co (basis n i) k) by (rewrite E; reflexivity). rewrite Y1.
        unfold pl in *. rewrite !co_bump in * by (rewrite ?bump_length; lia). rewrite co_basis in * by assumption.
        destruct (Nat.eqb_spec k i), (Nat.eqb_spec k j); subst; lia. }
      rewrite V. apply up_simple. exact Hj.
    + assert (U2 : up (pl (- a - b) (- b))) by (apply (F E); lia). clear U1. move_y Dj. move_x Ai. move_y Aj. at_end.
  - move_x Di. move_y Dj. move_x Di. move_y Aj. move_x Ai. move_y Aj. at_end.
  - move_x Di. move_y Dj. move_x Di. move_y Aj. move_x Ai. move_y Aj. at_end.
  - move_x Di. move_y Dj. move_x Di. move_y Dj. move_x Di. move_y Aj. move_x Ai. move_y Aj. move_x Ai. move_y Aj. at_end.
  - move_x Di. move_y Dj. move_x Di. move_y Dj. move_x Di. move_y Aj. move_x Ai. move_y Aj. move_x Ai. move_y Aj. at_end.
Qed.
End Plane.

(** closed under all simple reflections, apart from the simple roots themselves *)
Lemma up_down v i : up v -> (i < n)%nat -> v <> basis n i -> 0 < pair v i -> up (sr i v).
Proof.
  remember (Z.to_nat (height v)) as h eqn:Eh. revert v i Eh. induction h as [h IH] using lt_wf_ind. intros v i -> U Hi NE P.
  destruct (up_cases v U) as [(k & Hk & ->)|(j & u & Hj & U' & Pu & E & Pv & Lt)].
  - rewrite pair_basis in P by exact Hk. destruct (Nat.eq_dec k i) as [->|N]; [congruence|].
    pose proof (proj1 (proj2 cart) k i Hk Hi N). lia.
  - destruct (Nat.eq_dec i j) as [->|N].
    + rewrite E, sr_sr by (try assumption; apply up_length; exact U'). exact U'.
    + assert (E' : sr j v = u) by (rewrite E; apply sr_sr; [exact Hj|apply up_length; exact U']).
      apply (plane_closed i j Hi Hj N v (up_length _ U)); [|exact P|lia|rewrite E'; exact U'].
      intros w k Uw Hw Hk Nk Pw. pose proof (up_height w Uw). apply (IH (Z.to_nat (height w)) ltac:(lia) w k eq_refl Uw Hk Nk Pw).
Qed.
Lemma up_closed v i : up v -> (i < n)%nat -> v <> basis n i -> up (sr i v).
Proof.
  intros U Hi NE. destruct (Z.lt_trichotomy (pair v i) 0) as [P|[P|P]].
  - apply up_reflect; assumption.
  - unfold sreflect. rewrite P. cbn. rewrite bump_0 by (rewrite up_length; assumption). exact U.
  - apply up_down; assumption.
Qed.

(** the roots *)
Lemma root_coroot_length v w : root_coroot n C v w -> length v = n /\ length w = n.
Proof.
  induction 1 as [i H|i v w H R [IH1 IH2]]; [split; apply basis_length|]. unfold sreflect. rewrite !bump_length. split; assumption.
Qed.
Lemma root_length v : is_root n C v -> length v = n.
Proof. intros [w R]. apply (root_coroot_length v w R). Qed.
Lemma is_root_sr i v : (i < n)%nat -> is_root n C v -> is_root n C (sr i v).
Proof. intros H [w R]. exists (sreflect n (flip C) i w). apply rc_reflect; assumption. Qed.
Lemma up_root v : up v -> is_root n C v.
Proof.
  induction 1 as [i H|i v H U IH P]; [exists (basis n i); apply rc_simple; exact H|]. apply is_root_sr; assumption.
Qed.
Lemma root_up v : is_root n C v -> up v \/ up (opp v).
Proof.
  intros [w R]. induction R as [i H|i v w H R IH]; [left; apply up_simple; exact H|]. pose proof (proj1 (root_coroot_length _ _ R)) as L.
  assert (K : forall u, up u -> length u = n -> up (sr i u) \/ up (opp (sr i u))).
  { intros u U Lu. destruct (list_eq_dec Z.eq_dec u (basis n i)) as [->|N]; [right|left; apply up_closed; assumption].
    rewrite sr_basis, opp_opp by exact H. exact U. }
  destruct IH as [U|U]; [apply K; assumption|].
  destruct (K _ U ltac:(rewrite opp_length; exact L)) as [U'|U']; rewrite sr_opp in U' by lia; [right; exact U'|left; rewrite opp_opp in U'; exact U'].
Qed.
Lemma up_opp v : up v -> is_root n C (opp v).
Proof.
  assert (K : forall u w, root_coroot n C u w -> is_root n C (opp u)).
  { intros u w R. induction R as [i H|i x w H R IH].
    - rewrite <- sr_basis by exact H. apply is_root_sr; [exact H|]. exists (basis n i). apply rc_simple; exact H.
    - rewrite <- sr_opp by (rewrite (proj1 (root_coroot_length _ _ R)); exact H). apply is_root_sr; assumption. }
  intros U. destruct (up_root v U) as [w R]. apply (K v w R).
Qed.
Lemma nonneg_up v : is_root n C v -> nonneg v -> up v.
Proof.
  intros R N. destruct (root_up v R) as [U|U]; [exact U|]. exfalso. pose proof (up_height _ U) as H.
  rewrite height_zsum, opp_length in H.
  assert (Z0 : zsum (length v) (co (opp v)) <= 0); [|lia].
  replace (zsum (length v) (co (opp v))) with (-1 * zsum (length v) (co v)) by (rewrite <- zsum_mul_l; apply zsum_ext; intros k _; rewrite co_opp; lia).
  pose proof (zsum_nonneg (length v) (co v) (fun k _ => N k)). lia.
Qed.
(** positive roots: up is the same as root with coefficients that are not negative *)
Lemma up_iff v : up v <-> is_root n C v /\ nonneg v.
Proof. split; [intros U; split; [apply up_root|apply up_nonneg]; exact U|]. intros [R N]. apply nonneg_up; assumption. Qed.
(** a positive root has a coefficient that is positive, other than at [i] unless it is the simple root [i] *)
Lemma up_other v i : up v -> (i < n)%nat -> v <> basis n i -> exists k, (k < n)%nat /\ k <> i /\ 0 < co v k.
Proof.
  intros U Hi NE. pose proof (up_length v U) as L. pose proof (up_nonneg v U) as Nn.
  destruct (existsb (fun k => negb (Nat.eqb k i) && (0 <? co v k)) (seq 0 n)) eqn:E.
  - apply existsb_exists in E. destruct E as (k & I & T). apply in_seq in I. apply andb_prop in T. destruct T as [T1 T2]. exists k.
    split; [lia|]. split; [apply Nat.eqb_neq; apply negb_true_iff; exact T1|apply Z.ltb_lt; exact T2].
  - exfalso. assert (Z0 : forall k, (k < n)%nat -> k <> i -> co v k = 0).
    { intros k Hk N. destruct (Z.eq_dec (co v k) 0) as [Q|Q]; [exact Q|]. specialize (Nn k).
      assert (X : existsb (fun k => negb (Nat.eqb k i) && (0 <? co v k)) (seq 0 n) = true); [|congruence].
      apply existsb_exists. exists k. split; [apply in_seq; lia|]. rewrite (proj2 (Nat.eqb_neq _ _) N). apply Z.ltb_lt. lia. }
    assert (P : pair v i = 2 * co v i).
    { unfold pairing. rewrite (zsum_one n i); [rewrite diag by exact Hi; lia|exact Hi|]. intros k Hk N. rewrite Z0 by assumption. lia. }
    pose proof (up_closed v i U Hi NE) as U2. pose proof (up_nonneg _ U2 i) as Q. rewrite co_sr, Nat.eqb_refl in Q by lia.
    specialize (Nn i). pose proof (up_height v U) as H. rewrite height_zsum, L, (zsum_one n i) in H by (try assumption; exact Z0). lia.
Qed.
End Up.
