(** Verification of the transducer tables of all simple types, by computation *)

From Coq Require Import List Arith ZArith Lia Bool Ascii.
From Verif Require Import VecModel VecProofs RunModel RunProofs WeylModel WeylSpec WeylTable.
Import ListNotations.
Open Scope nat_scope.

Definition below (n : nat) (f : nat -> bool) : bool := forallb f (seq 0 n).
Lemma below_ok n f : below n f = true -> forall i, i < n -> f i = true.
Proof. intros H i L. unfold below in H. rewrite forallb_forall in H. apply H. apply in_seq. lia. Qed.

Definition same_opt (a b : option nat) : bool := match a, b with Some x, Some y => x =? y | _, _ => false end.
Lemma same_opt_ok a b : same_opt a b = true -> exists x, a = Some x /\ b = Some x.
Proof. destruct a as [x|], b as [y|]; cbn; try discriminate. intros E. apply Nat.eqb_eq in E. subst. eauto. Qed.

Definition check_table (m : nat -> nat -> nat) (tr : transducer) : bool :=
  let N := tr_size tr in let n := tr_limit tr in
  (length (tr_table tr) =? N) && forallb (fun row => length row =? n) (tr_table tr) && (0 <? n) && (2 <=? N) && (N <=? 256) &&
  match nth_error (tr_elt tr) 0 with Some (mk_info 0 None) => true | _ => false end &&
  below (n - 1) (fun s => T tr 0 s =? N + s) && (T tr 0 (n - 1) =? 1) &&
  below N (fun x => (x =? 0) || match i_right (info tr x) with Some s => (s <? n) && (T tr x s <? x) | None => false end) &&
  below N (fun x => below n (fun s =>
    let y := T tr x s in
    if y <? N then negb (y =? x) && (T tr y s =? x) && (negb (y <? x) || (len tr x =? S (len tr y)))
    else S (y - N) <? n)) &&
  below N (fun x => len tr x <=? max_piece_length) && below (N - 1) (fun x => len tr x <? len tr (N - 1)) &&
  below N (fun z => below n (fun s =>
    let l := last_letter tr z in
    if (T tr z s <? z) && negb (s =? l)
    then negb (m l s =? 0) && same_opt (descend tr (m l s) z l s) (descend tr (m l s) z s l)
    else true)) &&
  below N (fun z => below n (fun t =>
    let l := last_letter tr z in
    if (0 <? z) && (N <=? T tr z t)
    then negb (m l t =? 0) &&
         match descend tr (m l t - 1) z l t with Some b => T tr b (if Nat.even (m l t - 1) then l else t) =? T tr z t | None => false end
    else true)).

Lemma check_table_ok m tr : check_table m tr = true -> good_table m tr.
Proof.
  unfold check_table. cbv zeta. intros H. repeat (apply andb_true_iff in H; destruct H as [H ?]).
  repeat match goal with h : (_ =? _) = true |- _ => apply Nat.eqb_eq in h | h : (_ <=? _) = true |- _ => apply Nat.leb_le in h
    | h : (_ <? _) = true |- _ => apply Nat.ltb_lt in h end.
  constructor; auto.
  - intros row I. match goal with h : forallb _ _ = true |- _ => rewrite forallb_forall in h; apply h in I end. now apply Nat.eqb_eq.
  - destruct (nth_error (tr_elt tr) 0) as [[[|] [|]]|]; try discriminate. auto.
  - intros s Hs. pose proof (below_ok _ _ H7 s ltac:(lia)) as E. now apply Nat.eqb_eq.
  - intros x Hx. pose proof (below_ok _ _ H5 x ltac:(lia)) as E. cbv beta in E. apply orb_true_iff in E. destruct E as [E|E]; [apply Nat.eqb_eq in E; lia|].
    destruct (i_right (info tr x)) as [s|]; [|discriminate]. apply andb_true_iff in E. destruct E as [E1 E2]. apply Nat.ltb_lt in E1, E2. eauto.
  - intros x s Hx Hs HT. pose proof (below_ok _ _ (below_ok _ _ H4 x Hx) s Hs) as E. cbv beta in E. apply Nat.ltb_lt in HT. rewrite HT in E.
    apply andb_true_iff in E. destruct E as [E E3]. apply andb_true_iff in E. destruct E as [E1 E2]. apply negb_true_iff, Nat.eqb_neq in E1. apply Nat.eqb_eq in E2.
    split; [auto|]. split; [auto|]. intros L. apply Nat.ltb_lt in L. rewrite L in E3. cbn in E3. now apply Nat.eqb_eq.
  - intros x s Hx Hs HT. pose proof (below_ok _ _ (below_ok _ _ H4 x Hx) s Hs) as E. cbv beta in E. apply Nat.ltb_ge in HT. rewrite HT in E. now apply Nat.ltb_lt.
  - intros x Hx. pose proof (below_ok _ _ H3 x Hx) as E. now apply Nat.leb_le.
  - intros x Hx. pose proof (below_ok _ _ H2 x ltac:(lia)) as E. now apply Nat.ltb_lt.
  - intros z s Hz Hs HT Hn. pose proof (below_ok _ _ (below_ok _ _ H1 z Hz) s Hs) as E. cbv beta in E. apply Nat.ltb_lt in HT. rewrite HT in E.
    apply Nat.eqb_neq in Hn. rewrite Hn in E. cbn [andb negb] in E. apply andb_true_iff in E. destruct E as [E1 E2]. apply negb_true_iff, Nat.eqb_neq in E1.
    destruct (m (last_letter tr z) s) as [|k]; [lia|]. apply same_opt_ok in E2. destruct E2 as (b & A & B). eauto.
  - intros z s Hz Hs HT. pose proof (below_ok _ _ (below_ok _ _ H0 z ltac:(lia)) s Hs) as E. cbv beta in E. apply Nat.leb_le in HT. rewrite HT in E.
    destruct Hz as [Hz _]. apply Nat.ltb_lt in Hz. rewrite Hz in E. cbn [andb] in E. apply andb_true_iff in E. destruct E as [E1 E2]. apply negb_true_iff, Nat.eqb_neq in E1.
    destruct (m (last_letter tr z) s) as [|k]; [lia|]. replace (S k - 1) with k in E2 by lia.
    destruct (descend tr k z (last_letter tr z) s) as [b|] eqn:ED; [|discriminate]. apply Nat.eqb_eq in E2. eauto.
Qed.

(** *** the states are distinguished by their action on the last fundamental weight *)

Definition fund (i : nat) : nat -> Z := fun j => if j =? i then 1%Z else 0%Z.
Definition separated (A : nat -> nat -> Z) (tr : transducer) : Prop :=
  forall x y, x < tr_size tr -> y < tr_size tr ->
    (forall j, j < tr_limit tr -> reflect_word A (piece_word tr x) (fund (tr_limit tr - 1)) j = reflect_word A (piece_word tr y) (fund (tr_limit tr - 1)) j) -> x = y.

Lemma reflect_word_ext A : forall u v v', (forall j, v j = v' j) -> forall j, reflect_word A u v j = reflect_word A u v' j.
Proof.
  induction u as [|s u IH]; intros v v' H j; cbn; [auto|]. apply IH. intros k. unfold reflect. now rewrite !H.
Qed.
Lemma reflect_word_matrix A A' n u : (forall a b, a < n -> b < n -> A a b = A' a b) -> over n u -> forall v v', (forall j, j < n -> v j = v' j) ->
  forall j, j < n -> reflect_word A u v j = reflect_word A' u v' j.
Proof.
  intros E. induction u as [|s u IH]; intros O v v' H j Hj; cbn; [auto|]. assert (Hs : s < n) by (apply O; now left).
  apply IH; [intros x I; apply O; now right| |auto]. intros k Hk. unfold reflect. now rewrite !H, E.
Qed.
Lemma separated_ext A A' m tr : good_table m tr -> (forall a b, a < tr_limit tr -> b < tr_limit tr -> A a b = A' a b) -> separated A tr -> separated A' tr.
Proof.
  intros G E S x y Hx Hy H. apply (S x y Hx Hy). intros j Hj.
  rewrite !(reflect_word_matrix A A' (tr_limit tr) _ E) with (v' := fund (tr_limit tr - 1)); auto; apply (piece_over m tr G); auto.
Qed.

Definition reflect_list (A : nat -> nat -> Z) (n : nat) (v : list Z) (i : nat) : list Z :=
  let c := nth i v 0%Z in map (fun j => (nth j v 0 - c * A i j)%Z) (seq 0 n).
Definition coords (n : nat) (v : nat -> Z) : list Z := map v (seq 0 n).
Lemma coords_nth n v i : i < n -> nth i (coords n v) 0%Z = v i.
Proof.
  intros H. unfold coords. rewrite (nth_indep _ 0%Z (v 0)) by (rewrite map_length, seq_length; lia). rewrite map_nth, seq_nth by lia. auto.
Qed.
Lemma reflect_list_ok A n v i : i < n -> reflect_list A n (coords n v) i = coords n (reflect A i v).
Proof.
  intros H. unfold reflect_list, reflect. unfold coords at 3. apply map_ext_in. intros j I. apply in_seq in I. rewrite !coords_nth by lia. auto.
Qed.
Lemma reflect_word_list A n u v : over n u -> fold_left (reflect_list A n) u (coords n v) = coords n (reflect_word A u v).
Proof.
  revert v. induction u as [|s u IH]; intros v H; [auto|]. cbn [fold_left reflect_word]. rewrite reflect_list_ok by (apply H; now left).
  apply IH. intros x I. apply H. now right.
Qed.
Definition piece_vector (A : nat -> nat -> Z) (tr : transducer) (x : nat) : list Z :=
  fold_left (reflect_list A (tr_limit tr)) (piece_word tr x) (coords (tr_limit tr) (fund (tr_limit tr - 1))).
Fixpoint no_dup (l : list (list Z)) : bool :=
  match l with [] => true | x :: l => forallb (fun y => if list_eq_dec Z.eq_dec x y then false else true) l && no_dup l end.
Lemma no_dup_ok l : no_dup l = true -> NoDup l.
Proof.
  induction l as [|x l IH]; [constructor|]. cbn. intros H. apply andb_true_iff in H. destruct H as [A B]. constructor; [|auto].
  intros I. rewrite forallb_forall in A. apply A in I. destruct (list_eq_dec Z.eq_dec x x); [discriminate|tauto].
Qed.
Definition check_separated (A : nat -> nat -> Z) (tr : transducer) : bool := no_dup (map (piece_vector A tr) (seq 0 (tr_size tr))).
Lemma check_separated_ok A m tr : good_table m tr -> check_separated A tr = true -> separated A tr.
Proof.
  intros G H x y Hx Hy E. apply no_dup_ok in H. rewrite NoDup_nth_error in H. apply H.
  - rewrite map_length, seq_length. lia.
  - rewrite !nth_error_map. rewrite !(nth_error_nth' _ 0) by (rewrite seq_length; lia). rewrite !seq_nth by lia. cbn [option_map]. f_equal.
    unfold piece_vector. rewrite !reflect_word_list by (apply (piece_over m tr G); lia). unfold coords. apply map_ext_in. intros j I. apply in_seq in I. apply E. lia.
Qed.

(** *** the simple types; generators in the internal order of weyl.cpp (reversed for B, C, D) *)

Definition inner_cartan (type : ascii) (i j : nat) : Z :=
  if i =? j then 2%Z
  else
    (match type with
     | "A"%char => if next_to i j then -1 else 0
     | "B"%char => if next_to i j then (if (j =? 0)%nat then -2 else -1) else 0
     | "C"%char => if next_to i j then (if (i =? 0)%nat then -2 else -1) else 0
     | "D"%char => if (next_to i j && (0 <? i)%nat && (0 <? j)%nat) || edge [(0, 2)]%nat i j then -1 else 0
     | "E"%char => if edge [(0, 2); (1, 3); (2, 3); (3, 4); (4, 5); (5, 6); (6, 7)]%nat i j then -1 else 0
     | "F"%char => if next_to i j then (if (i =? 1)%nat && (j =? 2)%nat then -2 else -1) else 0
     | "G"%char => if (i =? 1)%nat && (j =? 0)%nat then -3 else if (i =? 0)%nat && (j =? 1)%nat then -1 else 0
     | _ => 0
     end)%Z.

Definition all_types : list (ascii * nat) := [("A", 32); ("B", 32); ("C", 32); ("D", 32); ("E", 8); ("F", 4); ("G", 2)]%char.
Definition check_type (type : ascii) (r : nat) : bool :=
  match make_transducer type 0 r with
  | Ok tr => (tr_limit tr =? S r) && check_table (coxeter (inner_cartan type)) tr && check_separated (inner_cartan type) tr
  | Fail _ => false
  end.
Lemma all_types_checked : forallb (fun '(t, k) => below k (check_type t)) all_types = true.
Proof. vm_compute. reflexivity. Qed.

Lemma descend_offset o o' l e t k : forall z u v, descend (mk_tr o l e t) k z u v = descend (mk_tr o' l e t) k z u v.
Proof.
  induction k as [|k IH]; intros z u v; [auto|]. cbn [descend]. change (T (mk_tr o l e t) z u) with (T (mk_tr o' l e t) z u).
  destruct (T (mk_tr o' l e t) z u <? z); auto.
Qed.
Lemma wd_offset o o' l e t f : forall x, wd (mk_tr o l e t) f x = wd (mk_tr o' l e t) f x.
Proof.
  induction f as [|f IH]; intros x; [auto|]. cbn [wd]. destruct (x =? 0); [auto|]. cbv zeta.
  change (last_letter (mk_tr o l e t) x) with (last_letter (mk_tr o' l e t) x). rewrite IH. auto.
Qed.
Theorem transducer_ok type k offset r : In (type, k) all_types -> r < k ->
  exists tr, make_transducer type offset r = Ok tr /\ tr_offset tr = offset /\ tr_limit tr = S r /\
    good_table (coxeter (inner_cartan type)) tr /\ separated (inner_cartan type) tr.
Proof.
  intros I L. pose proof all_types_checked as H. rewrite forallb_forall in H. apply H in I. pose proof (below_ok _ _ I r L) as C. unfold check_type in C.
  unfold make_transducer in *. destruct (make_states type r) as [[elt tab]|]; [|discriminate]. cbn [bind] in *.
  match type of C with context [bind ?a _] => destruct a as [table|]; [|discriminate] end. cbn [bind] in *.
  apply andb_true_iff in C. destruct C as [C C3]. apply andb_true_iff in C. destruct C as [C1 C2].
  exists (mk_tr offset (S r) elt table). split; [auto|]. split; [auto|]. split; [auto|].
  assert (G : good_table (coxeter (inner_cartan type)) (mk_tr 0 (S r) elt table)) by now apply check_table_ok.
  split.
  - destruct G as [a1 a2 a3 a4 a5 a6 a7 a8 a9 a10 a11 a12 g_braid0 g_fixed0]. constructor; try assumption.
    + intros z s A B C D. destruct (g_braid0 z s A B C D) as (k' & b & E1 & E2 & E3). exists k', b. split; [exact E1|].
      rewrite <- (descend_offset 0 offset), <- (descend_offset 0 offset (S r) elt table (S k') z s). auto.
    + intros z s A B C. destruct (g_fixed0 z s A B C) as (k' & b & E1 & E2 & E3). exists k', b. split; [exact E1|]. split; [|exact E3].
      rewrite <- (descend_offset 0 offset). exact E2.
  - apply (check_separated_ok _ _ _ G) in C3. intros x y Hx Hy E. apply (C3 x y Hx Hy). intros j Hj. specialize (E j Hj). revert E.
    unfold piece_word. rewrite !(wd_offset offset 0). auto.
Qed.
