(** The step of the classification of Cartan matrices: one more node attached to a node of a standard matrix gives again a
    matrix of finite type, or a matrix with a nonnegative vector whose pairings are not positive.  For each rank below 32 this is
    a computation. *)

From Coq Require Import List Arith ZArith Bool Lia Permutation.
From Verif Require Import VecModel RunModel MatModel MatSpec MatProofs LieTypeModel LieTypeSpec DynkinModel DynProps RootProps.
Import ListNotations.
Local Open Scope Z_scope.

(** the standard matrix with one more node, attached to node [k] by the entries [- a] and [- b] *)
Definition ext (X : letter) (r k : nat) (a b : Z) (i j : nat) : Z :=
  if Nat.eqb i r then if Nat.eqb j r then 2 else if Nat.eqb j k then - b else 0
  else if Nat.eqb j r then if Nat.eqb i k then - a else 0 else std X r i j.

(** row [k] of the inverse of the standard matrix, multiplied by the first component *)
Definition row (X : letter) (r k : nat) : Z * list Z :=
  let m i := Z.of_nat (Nat.min (S i) (S k)) in
  let R := Z.of_nat r in
  match X with
  | tA => (R + 1, map (fun i => m i * (R + 1 - Z.of_nat (Nat.max (S i) (S k)))) (seq 0 r))
  | tB => if Nat.eqb (S k) r then (2, map m (seq 0 r)) else (1, map m (seq 0 r))
  | tC => (2, map (fun i => if Nat.eqb (S i) r then m i else 2 * m i) (seq 0 r))
  | tD => (4, if Nat.leb (r - 2) k
              then map (fun i => if Nat.leb (r - 2) i then if Nat.eqb i k then R else R - 2 else 2 * Z.of_nat (S i)) (seq 0 r)
              else map (fun i => if Nat.leb (r - 2) i then 2 * m i else 4 * m i) (seq 0 r))
  | tE => match r with
          | 6%nat => (3, nth k [[4; 3; 5; 6; 4; 2]; [3; 6; 6; 9; 6; 3]; [5; 6; 10; 12; 8; 4]; [6; 9; 12; 18; 12; 6]; [4; 6; 8; 12; 10; 5]; [2; 3; 4; 6; 5; 4]] [])
          | 7%nat => (2, nth k [[4; 4; 6; 8; 6; 4; 2]; [4; 7; 8; 12; 9; 6; 3]; [6; 8; 12; 16; 12; 8; 4]; [8; 12; 16; 24; 18; 12; 6]; [6; 9; 12; 18; 15; 10; 5]; [4; 6; 8; 12; 10; 8; 4]; [2; 3; 4; 6; 5; 4; 3]] [])
          | _ => (1, nth k [[4; 5; 7; 10; 8; 6; 4; 2]; [5; 8; 10; 15; 12; 9; 6; 3]; [7; 10; 14; 20; 16; 12; 8; 4]; [10; 15; 20; 30; 24; 18; 12; 6]; [8; 12; 16; 24; 20; 15; 10; 5]; [6; 9; 12; 18; 15; 12; 8; 4]; [4; 6; 8; 12; 10; 8; 6; 3]; [2; 3; 4; 6; 5; 4; 3; 2]] [])
          end
  | tF => (1, nth k [[2; 3; 4; 2]; [3; 6; 8; 4]; [2; 4; 6; 3]; [1; 2; 3; 2]] [])
  | tf => (1, nth k [[2; 3; 2; 1]; [3; 6; 4; 2]; [4; 8; 6; 3]; [2; 4; 3; 2]] [])
  | tG => (1, nth k [[2; 1]; [3; 2]] [])
  | tg => (1, nth k [[2; 3]; [1; 2]] [])
  | tT => (1, [])
  end.
Fixpoint pair_with (x : list Z) (g : nat -> Z) (j : nat) : Z :=
  match x with
  | [] => 0
  | c :: rest => c * g j + pair_with rest g (S j)
  end.
Definition row_ok (X : letter) (r k : nat) : bool :=
  let (den, w) := row X r k in
  (0 <? den) && Nat.eqb (length w) r && forallb (fun c => 0 <=? c) w &&
  forallb (fun i => pair_with w (fun j => std X r j i) 0 =? (if Nat.eqb i k then den else 0)) (seq 0 r).
(** [if] where the computation is not to continue after the answer is known *)
Fixpoint every {A} (p : A -> bool) (l : list A) : bool := match l with [] => true | x :: rest => if p x then every p rest else false end.
Fixpoint some {A} (p : A -> bool) (l : list A) : bool := match l with [] => false | x :: rest => if p x then true else some p rest end.
Definition match_ok (n : nat) (f : nat -> nat -> Z) (Y : letter) (pi : list nat) : bool :=
  every (fun i => every (fun j => f (nth i pi 0%nat) (nth j pi 0%nat) =? std Y n i j) (seq 0 n)) (seq 0 n).
Definition orders (r : nat) : list (list nat) := [seq 0 (S r); rev (seq 0 r) ++ [r]; r :: seq 0 r].
Definition finite_ok (r : nat) (f : nat -> nat -> Z) : bool :=
  if Nat.leb r 8 then
    match lie_type_perm (mk_mat (S r) (S r) (flat_map (fun i => map (f i) (seq 0 (S r))) (seq 0 (S r)))) with Ok _ => true | Fail _ => false end
  else some (fun Y => some (match_ok (S r) f Y) (orders r)) [tA; tB; tC; tD].
Definition bonds : list (Z * Z) := [(1, 1); (1, 2); (2, 1); (1, 3); (3, 1)].
Definition node_ok (X : letter) (r k : nat) : bool :=
  row_ok X r k &&
  let (den, w) := row X r k in
  every (fun ab => if 2 * den <=? fst ab * snd ab * nth k w 0 then true else finite_ok r (ext X r k (fst ab) (snd ab))) bonds.
Definition type_ok (X : letter) (r : nat) : bool := forallb (node_ok X r) (seq 0 r).

Lemma table_A : every (type_ok tA) (seq 1 31) = true. Proof. vm_compute. reflexivity. Qed.
Lemma table_B : every (type_ok tB) (seq 2 30) = true. Proof. vm_compute. reflexivity. Qed.
Lemma table_C : every (type_ok tC) (seq 2 30) = true. Proof. vm_compute. reflexivity. Qed.
Lemma table_D : every (type_ok tD) (seq 4 28) = true. Proof. vm_compute. reflexivity. Qed.
Lemma table_E : every (type_ok tE) [6; 7; 8]%nat = true. Proof. vm_compute. reflexivity. Qed.
Lemma table_FG : type_ok tF 4 && type_ok tf 4 && type_ok tG 2 && type_ok tg 2 = true. Proof. vm_compute. reflexivity. Qed.

Lemma every_in {A} (p : A -> bool) l x : every p l = true -> In x l -> p x = true.
Proof. induction l as [|y l IH]; cbn; intros H I; [destruct I|]. destruct (p y) eqn:E; [|discriminate]. destruct I as [<-|I]; auto. Qed.
Lemma some_in {A} (p : A -> bool) l : some p l = true -> exists x, In x l /\ p x = true.
Proof. induction l as [|y l IH]; cbn; intros H; [discriminate|]. destruct (p y) eqn:E; [exists y; auto|]. destruct (IH H) as (x & I & Q). exists x. auto. Qed.
Lemma table_type X r : X <> tT -> valid_rank X r -> (r <= 31)%nat -> type_ok X r = true.
Proof.
  pose proof table_FG as T. rewrite !andb_true_iff in T. destruct T as (((T1 & T2) & T3) & T4).
  intros N V L. destruct X; cbn in V; try (subst r; assumption); try congruence.
  - apply (every_in _ _ _ table_A). apply in_seq. lia.
  - apply (every_in _ _ _ table_B). apply in_seq. lia.
  - apply (every_in _ _ _ table_C). apply in_seq. lia.
  - apply (every_in _ _ _ table_D). apply in_seq. lia.
  - apply (every_in _ _ _ table_E). cbn. lia.
Qed.

Lemma mk_is_mx n (f : nat -> nat -> Z) : is_mx (mk_mat n n (flat_map (fun i => map (f i) (seq 0 n)) (seq 0 n))) n n f.
Proof.
  assert (K : forall (l : list nat), length (flat_map (fun i => map (f i) (seq 0 n)) l) = (length l * n)%nat /\
     forall i j, (i < length l)%nat -> (j < n)%nat -> get (flat_map (fun i => map (f i) (seq 0 n)) l) (i * n + j) = Some (f (nth i l 0%nat) j)).
  { induction l as [|a l [I1 I2]]; [split; [reflexivity|cbn; lia]|]. cbn [flat_map length]. rewrite app_length, map_length, seq_length, I1. split; [lia|].
    intros i j Hi Hj. destruct i as [|i].
    - cbn [nth Nat.mul Nat.add]. unfold get; rewrite nth_error_app1 by (rewrite map_length, seq_length; exact Hj).
      rewrite (map_nth_error _ _ _ (d := j)); [reflexivity|]. rewrite (nth_error_nth' _ 0%nat) by (rewrite seq_length; exact Hj). rewrite seq_nth by exact Hj. reflexivity.
    - cbn [nth]. unfold get; rewrite nth_error_app2 by (rewrite map_length, seq_length; lia). rewrite map_length, seq_length.
      replace (S i * n + j - n)%nat with (i * n + j)%nat by lia. apply I2; [lia|exact Hj]. }
  destruct (K (seq 0 n)) as [K1 K2]. rewrite seq_length in *. split; [reflexivity|]. split; [reflexivity|]. split; [exact K1|].
  intros i j Hi Hj. cbn [mdata]. rewrite K2 by assumption. rewrite seq_nth by assumption. reflexivity.
Qed.
Lemma orders_perm r pi : In pi (orders r) -> Permutation pi (seq 0 (S r)).
Proof.
  intros [<-|[<-|[<-|[]]]].
  - reflexivity.
  - rewrite seq_S. apply Permutation_app_tail. symmetry. apply Permutation_rev.
  - rewrite seq_S. cbn. apply Permutation_cons_append.
Qed.
Lemma finite_ok_finite r f : (r <= 31)%nat -> finite_ok r f = true -> finite_type (S r) f.
Proof.
  intros L H. unfold finite_ok in H. destruct (Nat.leb_spec r 8) as [R|R].
  - destruct (lie_type_perm _) as [[t pi]|] eqn:E; [|discriminate]. refine (type_finite (S r) f _ t pi _ (mk_is_mx _ _) E); lia.
  - apply some_in in H as (Y & IY & H). apply some_in in H as (pi & Ip & H). apply orders_perm in Ip.
    exists [(Y, S r)], pi. assert (V : valid_rank Y (S r) /\ Y <> tT) by (cbn in IY; intuition (subst; cbn; try lia; try congruence)).
    split; [constructor; [apply V|constructor]|]. split; [constructor; [apply V|constructor]|]. split; [cbn; lia|]. split; [exact Ip|].
    intros i j Hi Hj. unfold match_ok in H. pose proof (every_in _ _ i H) as H1. specialize (H1 ltac:(apply in_seq; lia)). cbn beta in H1.
    pose proof (every_in _ _ j H1) as H2. specialize (H2 ltac:(apply in_seq; lia)). cbn beta in H2. apply Z.eqb_eq in H2. rewrite H2.
    cbn [block_diagonal fst snd]. rewrite (proj2 (Nat.ltb_lt i (S r))), (proj2 (Nat.ltb_lt j (S r))) by lia. cbn [andb]. unfold simple_matrix. cbn [fst snd].
    destruct V as [_ V]. destruct Y; try reflexivity. congruence.
Qed.
Lemma pair_with_sum w g : forall j, pair_with w g j = fold_right Z.add 0 (map (fun i => nth i w 0 * g (j + i)%nat) (seq 0 (length w))).
Proof.
  induction w as [|c w IH]; intros j; [reflexivity|]. cbn [pair_with length seq map fold_right nth]. rewrite IH, Nat.add_0_r. f_equal.
  rewrite <- seq_shift, map_map. f_equal. apply map_ext. intros i. cbn [nth]. f_equal. f_equal. lia.
Qed.
(** the step *)
Theorem table X r k a b : X <> tT -> valid_rank X r -> (r <= 31)%nat -> (k < r)%nat -> 1 <= a -> 1 <= b -> a * b <= 3 ->
  finite_type (S r) (ext X r k a b) \/
  exists w : list Z, length w = S r /\ (forall i, 0 <= nth i w 0) /\ 0 < nth r w 0 /\
    forall i, (i < S r)%nat -> fold_right Z.add 0 (map (fun j => nth j w 0 * ext X r k a b j i) (seq 0 (S r))) <= 0.
Proof.
  intros N V L Hk A1 B1 AB. pose proof (table_type X r N V L) as T. unfold type_ok in T. rewrite forallb_forall in T. specialize (T k ltac:(apply in_seq; lia)).
  unfold node_ok, row_ok in T. destruct (row X r k) as [den w]. rewrite !andb_true_iff in T. destruct T as [(((T1 & T2) & T3) & T4) T5].
  apply Z.ltb_lt in T1. apply Nat.eqb_eq in T2. rewrite forallb_forall in T3, T4.
  assert (IB : In (a, b) bonds).
  { assert (a = 1 \/ a = 2 \/ a = 3) as [->|[->| ->]] by nia; assert (b = 1 \/ b = 2 \/ b = 3) as [->|[->| ->]] by nia; cbn; try tauto; lia. }
  pose proof (every_in _ _ _ T5 IB) as T6. cbn beta in T6. cbn [fst snd] in T6. destruct (Z.leb_spec (2 * den) (a * b * nth k w 0)) as [Q|Q].
  2: { left. apply finite_ok_finite; assumption. }
  right. clear T5 T6. exists (map (Z.mul b) w ++ [den]). rewrite app_length, map_length. cbn [length]. split; [lia|].
  assert (NW : forall i, (i < r)%nat -> nth i (map (Z.mul b) w ++ [den]) 0 = b * nth i w 0).
  { intros i Hi. rewrite app_nth1 by (rewrite map_length; lia). rewrite (nth_indep _ 0 (b * 0)) by (rewrite map_length; lia). apply map_nth. }
  assert (NR : nth r (map (Z.mul b) w ++ [den]) 0 = den) by (rewrite app_nth2 by (rewrite map_length; lia); rewrite map_length, T2, Nat.sub_diag; reflexivity).
  assert (WP : forall i, 0 <= nth i w 0).
  { intros i. destruct (Nat.lt_ge_cases i (length w)) as [Q1|Q1]; [|rewrite nth_overflow by exact Q1; lia]. apply Z.leb_le, T3, nth_In. exact Q1. }
  split; [|split; [lia|]].
  { intros i. destruct (Nat.lt_ge_cases i r) as [Q1|Q1]; [rewrite NW by exact Q1; pose proof (WP i); nia|].
    destruct (Nat.eq_dec i r) as [->|]; [lia|]. rewrite nth_overflow; [lia|]. rewrite app_length, map_length. cbn [length]. lia. }
  intros i Hi. rewrite seq_S, map_app, fold_right_app. cbn [map fold_right Nat.add]. rewrite NR.
  assert (SP : forall (g : nat -> Z) l z, fold_right Z.add z (map g l) = fold_right Z.add 0 (map g l) + z).
  { intros g l z. induction l as [|c l IH]; cbn [map fold_right]; [lia|]. rewrite IH. lia. }
  rewrite SP, Z.add_0_r.
  assert (SB : forall (g h : nat -> Z) l, (forall j, In j l -> g j = b * h j) -> fold_right Z.add 0 (map g l) = b * fold_right Z.add 0 (map h l)).
  { intros g h l H. induction l as [|c l IH]; cbn [map fold_right]; [lia|]. rewrite IH by (intros; apply H; right; assumption). rewrite (H c) by (left; reflexivity). lia. }
  destruct (Nat.eq_dec i r) as [->|Ni].
  - assert (E : fold_right Z.add 0 (map (fun j => nth j (map (Z.mul b) w ++ [den]) 0 * ext X r k a b j r) (seq 0 r)) = - a * b * nth k w 0).
    { rewrite (SB _ (fun j => nth j w 0 * (if Nat.eqb j k then - a else 0))).
      2: { intros j Ij. apply in_seq in Ij. rewrite NW by lia. unfold ext. rewrite (proj2 (Nat.eqb_neq j r)), Nat.eqb_refl by lia. ring. }
      assert (K : forall l, NoDup l -> fold_right Z.add 0 (map (fun j => nth j w 0 * (if Nat.eqb j k then - a else 0)) l) = if in_dec Nat.eq_dec k l then - a * nth k w 0 else 0).
      { induction l as [|c l IH]; intros ND; [reflexivity|]. inversion ND; subst. cbn [map fold_right]. rewrite IH by assumption.
        destruct (Nat.eqb_spec c k) as [->|Nc].
        - destruct (in_dec Nat.eq_dec k l); [contradiction|]. destruct (in_dec Nat.eq_dec k (k :: l)) as [|Q1]; [ring|]. exfalso. apply Q1. left. reflexivity.
        - destruct (in_dec Nat.eq_dec k l) as [I1|I1], (in_dec Nat.eq_dec k (c :: l)) as [I2|I2]; try ring; exfalso; [apply I2; right; exact I1|]. destruct I2; [congruence|contradiction]. }
      rewrite K by apply seq_NoDup. destruct (in_dec Nat.eq_dec k (seq 0 r)) as [|Q1]; [ring|]. exfalso. apply Q1, in_seq. lia. }
    rewrite E. unfold ext. rewrite !Nat.eqb_refl. nia.
  - rewrite (SB _ (fun j => nth j w 0 * std X r (0 + j) i)).
    2: { intros j Ij. apply in_seq in Ij. rewrite NW by lia. unfold ext. rewrite (proj2 (Nat.eqb_neq j r)), (proj2 (Nat.eqb_neq i r)) by lia. cbn [Nat.add]. ring. }
    specialize (T4 i ltac:(apply in_seq; lia)). apply Z.eqb_eq in T4. rewrite (pair_with_sum w (fun j => std X r j i)) in T4. rewrite T2 in T4. rewrite T4. unfold ext. rewrite Nat.eqb_refl, (proj2 (Nat.eqb_neq i r)) by lia.
    destruct (Nat.eqb i k); nia.
Qed.
