(** Weyl groups: sizes of the transducers and orders of the groups *)

From Coq Require Import List Arith ZArith Znumtheory Lia Bool Ascii Permutation.
From Verif Require Import VecModel VecProofs RunModel RunProofs SizeModel SizeSpec SizeProofs WeylModel WeylSpec WeylTable WeylCheck WeylExchange WeylGroup WeylOps WeylMore WeylMake WeylExt.
Import ListNotations.
Open Scope nat_scope.

Definition state_count (type : ascii) (i : nat) : nat := match make_transducer type 0 i with Ok tr => tr_size tr | Fail _ => 0 end.
Lemma state_count_ok type offset i tr : make_transducer type offset i = Ok tr -> tr_size tr = state_count type i.
Proof.
  unfold state_count, make_transducer. destruct (make_states type i) as [[elt tab]|]; [|discriminate]. cbn [bind].
  match goal with |- context [bind ?a _] => destruct a as [table|]; [|discriminate] end. cbn [bind]. intros H. injection H as <-. reflexivity.
Qed.
(** products of the numbers of states, for all ranks *)
Definition check_order (type : ascii) (k : nat) (ranks : list nat) : bool :=
  let l := map (fun i => Z.of_nat (state_count type i)) (seq 0 k) in
  forallb (fun r => (product (firstn r l) =? product (degrees type r))%Z) ranks && forallb (fun x => (x <=? 240)%Z) l.
Definition all_ranks : list (ascii * nat * list nat) :=
  [("A", 32, seq 0 33); ("B", 32, seq 1 32); ("C", 32, seq 1 32); ("D", 32, seq 2 31); ("E", 8, [6; 7; 8]); ("F", 4, [4]); ("G", 2, [2])]%char.
Lemma all_orders : forallb (fun '(t, k, l) => check_order t k l) all_ranks = true.
Proof. vm_compute. reflexivity. Qed.
Lemma simple_ranks type r : simple_type type r -> r <= rank_max -> exists k l, In (type, k, l) all_ranks /\ r <= k /\ In r l.
Proof.
  intros S H. unfold rank_max in H. unfold simple_type in S. unfold all_ranks. destruct type as [[] [] [] [] [] [] [] []]; try contradiction;
  (eexists; eexists; split; [cbn [In];
     first [left; reflexivity|right; left; reflexivity|do 2 right; left; reflexivity|do 3 right; left; reflexivity|do 4 right; left; reflexivity|do 5 right; left; reflexivity|do 6 right; left; reflexivity]
   |split; [lia|first [apply in_seq; lia|cbn; lia]]]).
Qed.
Lemma order_simple type r : simple_type type r -> r <= rank_max -> product (map (fun i => Z.of_nat (state_count type i)) (seq 0 r)) = product (degrees type r).
Proof.
  intros S H. destruct (simple_ranks type r S H) as (k & l & I & L & J). pose proof all_orders as C. rewrite forallb_forall in C. apply C in I. unfold check_order in I. apply andb_true_iff in I. destruct I as [I _].
  rewrite forallb_forall in I. apply I in J. apply Z.eqb_eq in J. rewrite <- J. f_equal. rewrite firstn_map. f_equal.
  replace k with (r + (k - r)) by lia. rewrite seq_app, firstn_app, seq_length, Nat.sub_diag, app_nil_r. rewrite firstn_all2; [auto|]. now rewrite seq_length.
Qed.
Lemma state_bound type r i : simple_type type r -> r <= rank_max -> i < r -> state_count type i <= 240.
Proof.
  intros S H Hi. destruct (simple_ranks type r S H) as (k & l & I & L & J). pose proof all_orders as C. rewrite forallb_forall in C. apply C in I. unfold check_order in I.
  apply andb_true_iff in I. destruct I as [_ I]. rewrite forallb_forall in I. specialize (I (Z.of_nat (state_count type i))).
  assert (X : (Z.of_nat (state_count type i) <=? 240)%Z = true); [|apply Z.leb_le in X; lia]. apply I. apply (in_map (fun i => Z.of_nat (state_count type i))). apply in_seq. lia.
Qed.
Lemma simple_is type r : simple_type type r -> is_simple type r.
Proof. unfold simple_type, is_simple. destruct type as [[] [] [] [] [] [] [] []]; auto; lia. Qed.
Lemma stands_bound d v p : stands_for d v -> prime p -> ~ (p ^ 128 | v)%Z.
Proof.
  intros S P DV. destruct (stands_smooth d v S) as [POS SM]. assert (PV : (p | v)%Z). { apply (Z.divide_trans _ (p ^ 128)%Z); [|auto]. exists (p ^ 127)%Z. rewrite <- (Z.pow_1_r p) at 3. rewrite <- Z.pow_add_r by lia. auto. }
  assert (I : In p the_primes) by (apply the_primes_iff; auto). destruct S as (L & H & <-).
  set (es := map (fun q => if (q =? p)%Z then 128%Z else 0%Z) the_primes). assert (E : prod_powers the_primes es = (p ^ 128)%Z).
  { unfold es, the_primes in *. clear - I. cbn [In] in I. repeat (destruct I as [<-|I]; [vm_compute; reflexivity|]). destruct I. }
  rewrite <- E in DV. apply (prod_divides the_primes the_primes_nodup the_primes_prime) in DV; auto.
  - assert (X : exists i, get the_primes i = Some p) by (apply In_nth_error in I; auto). destruct X as (i & X).
    assert (Y : get es i = Some 128%Z) by (unfold es, get in *; rewrite nth_error_map, X; cbn; now rewrite Z.eqb_refl).
    unfold get in *. clear - DV Y H. revert i Y H. induction DV; intros [|i] Y H0; cbn in Y; try discriminate.
    + injection Y as ->. specialize (H0 y (or_introl eq_refl)). lia.
    + apply (IHDV i Y). intros e I. apply H0. now right.
  - intros e Ie. unfold es in Ie. apply in_map_iff in Ie. destruct Ie as (q & <- & _). destruct (q =? p)%Z; lia.
  - intros e Ie. apply H in Ie. lia.
Qed.
Lemma number_ok a : (0 < a < 2 ^ 64)%Z -> smooth a -> exists d, size_of rounds a = Ok (d, false) /\ stands_for d a.
Proof.
  intros Ha Sm. pose proof (size_of_ok rounds a (Nat.le_refl _) Ha) as M. destruct (size_of rounds a) as [[d said]|e]; [|destruct M]. cbn [gives] in M.
  destruct M as (v & m & A & B & C & _ & D & E). assert (m = 1%Z).
  { destruct (Z.eq_dec m 1) as [|N]; [auto|]. destruct (prime_divisor m ltac:(lia)) as (p & Hp & Dp). pose proof (D p Hp Dp). specialize (Sm p Hp). rewrite B in Sm.
    specialize (Sm (Z.divide_mul_r _ _ _ Dp)). lia. }
  subst m. rewrite Z.mul_1_r in B. subst v. exists d. split; [|auto]. destruct said; [|auto]. exfalso. now apply (proj1 E eq_refl).
Qed.

Section Order.
Variables (n : nat) (A : nat -> nat -> Z) (comps : list component) (W : weyl_group).
Hypothesis D : describes n A comps.
Hypothesis RM : n <= rank_max.
Hypothesis MK : make_weyl n comps = Ok W.
Definition lie_type : list (ascii * nat) := map (fun c => (c_type c, length (c_position c))) comps.
Lemma sizes_app k l : forall a, sizes W (k + l) a = (sizes W k a * sizes W l (a + k))%Z.
Proof.
  induction k as [|k IH]; intros a; cbn [sizes Nat.add]; [rewrite Nat.add_0_r; lia|]. rewrite IH. replace (S a + k) with (a + S k) by lia. lia.
Qed.
Lemma sizes_map k : forall a, sizes W k a = product (map (fun i => Z.of_nat (tr_size (trn W (a + i)))) (seq 0 k)).
Proof.
  induction k as [|k IH]; intros a; cbn [sizes]; [auto|]. rewrite IH. cbn [seq map product fold_right]. rewrite Nat.add_0_r. f_equal. rewrite <- seq_shift, map_map.
  unfold product. f_equal. apply map_ext. intros i. f_equal. f_equal. f_equal. lia.
Qed.
Lemma order_ok : sizes W n 0 = weyl_order lie_type.
Proof.
  rewrite <- (d_total n A comps D) at 1. pose proof (the_transducers n A comps W D RM MK) as [_ IN].
  assert (CO : consecutive c_offset c_position 0 comps) by apply D. unfold lie_type.
  assert (X : forall l a, incl l comps -> consecutive c_offset c_position a l -> sizes W (total l) a = weyl_order (map (fun c => (c_type c, length (c_position c))) l)).
  { induction l as [|c l IH]; intros a IC C; [reflexivity|]. destruct C as [C1 C2]. rewrite total_cons, sizes_app, IH by (auto; intros x Ix; apply IC; now right).
    unfold weyl_order. cbn [map product fold_right]. f_equal. assert (Ic : In c comps) by (apply IC; now left).
    destruct (d_simple n A comps D RM c Ic) as (S1 & _ & LE). rewrite <- (order_simple _ _ S1) by lia.
    rewrite sizes_map. f_equal. apply map_ext_in. intros i Ii. apply in_seq in Ii. f_equal. rewrite <- C1. apply (state_count_ok _ (c_offset c)). apply IN; [auto|lia]. }
  apply X; [apply incl_refl|auto].
Qed.
Lemma total_lie : total_rank lie_type = n.
Proof.
  rewrite <- (d_total n A comps D). unfold lie_type. clear D MK. induction comps as [|c l IH]; [reflexivity|]. rewrite total_cons. cbn [map total_rank fold_right]. f_equal. exact IH.
Qed.
Lemma lie_simple x r : In (x, r) lie_type -> is_simple x r.
Proof.
  intros I. unfold lie_type in I. apply in_map_iff in I. destruct I as (c & E & Ic). injection E as <- <-. apply simple_is. apply (d_simple n A comps D RM c Ic).
Qed.
Lemma sizes_pos k : forall a, a + k <= n -> (0 < sizes W k a)%Z.
Proof.
  pose proof (G n A comps W D RM MK) as GG.
  induction k as [|k IH]; intros a H; cbn [sizes]; [lia|]. pose proof (size_two n _ _ _ W GG a ltac:(lia)). specialize (IH (S a) ltac:(lia)). nia.
Qed.
Lemma sizes_divide k : k <= n -> (sizes W k 0 | sizes W n 0)%Z.
Proof. intros H. replace n with (k + (n - k)) by lia. rewrite sizes_app. apply Z.divide_factor_l. Qed.
Lemma w_order_ok : exists d, w_order W = Ok (d, false) /\ stands_for d (weyl_order lie_type).
Proof.
  destruct (weyl_size_ok lie_type lie_simple ltac:(rewrite total_lie; exact RM)) as (d0 & _ & S0). rewrite <- order_ok in *.
  pose proof (G n A comps W D RM MK) as GG.
  assert (M : gives (w_order W) (fun '(d, said) => said = false /\ stands_for d (sizes W n 0)) sure).
  { unfold w_order. rewrite (rank_is n A comps W D RM MK). apply (gives_range (fun k '(d, said) => said = false /\ stands_for d (sizes W k 0))).
    - split; [auto|]. apply standsb_ok. reflexivity.
    - intros i [d said] Hi [-> Sd]. assert (Hin : i < n) by lia. rewrite (tr_get n _ _ _ W GG) by auto. cbn [bind]. unfold size_mul_n.
      pose proof (size_two n _ _ _ W GG i Hin) as S2.
      assert (DI : (sizes W i 0 * Z.of_nat (tr_size (trn W i)) | sizes W n 0)%Z).
      { apply (Z.divide_trans _ (sizes W (S i) 0)); [|apply sizes_divide; lia]. rewrite <- Nat.add_1_r, sizes_app. cbn [sizes Nat.add]. rewrite Z.mul_1_r. apply Z.divide_refl. }
      destruct (number_ok (Z.of_nat (tr_size (trn W i)))) as (a & Ea & Sa).
      + pose proof (g_size _ _ (gg_table _ _ _ _ _ GG i Hin)). split; [lia|].
        destruct (comp_of_spec n A comps D RM i Hin) as [Ic Hc]. destruct (d_simple n A comps D RM _ Ic) as (S1 & _ & LE). pose proof (the_transducers n A comps W D RM MK) as [_ IN].
        specialize (IN (comp_of comps i) (i - c_offset (comp_of comps i)) Ic ltac:(lia)). replace (c_offset (comp_of comps i) + (i - c_offset (comp_of comps i))) with i in IN by lia.
        apply state_count_ok in IN. unfold trn. rewrite IN. pose proof (state_bound _ _ (i - c_offset (comp_of comps i)) S1 ltac:(lia) ltac:(lia)). lia.
      + intros p Pp Dp. apply (proj2 (stands_smooth _ _ S0) p Pp). apply (Z.divide_trans _ _ _ Dp). apply (Z.divide_trans _ _ _ (Z.divide_factor_r _ _) DI).
      + rewrite Ea. cbn [bind]. destruct (size_mul_ok d a _ _ Sd Sa) as (r & Er & Sr).
        * intros p Pp Dp. apply (stands_bound _ _ p S0 Pp). apply (Z.divide_trans _ _ _ Dp DI).
        * rewrite Er. cbn [bind gives orb]. split; [auto|]. rewrite <- Nat.add_1_r, sizes_app. cbn [sizes Nat.add]. rewrite Z.mul_1_r. exact Sr. }
  apply gives_sure in M. destruct M as ([d said] & E & -> & S). exists d. auto.
Qed.
(** there are no more elements than the order *)
Lemma elements_bound l : NoDup l -> (forall x, In x l -> valid n W x) -> length l <= Z.to_nat (weyl_order lie_type).
Proof.
  intros N VL. rewrite <- order_ok. set (code := fun w => Z.to_nat (radix W n 0 w)).
  assert (NP : NoDup (map code l)).
  { induction l as [|a l IH]; [constructor|]. apply NoDup_cons_iff in N. destruct N as [N1 N2]. cbn [map]. constructor; [|apply IH; auto; intros x I; apply VL; now right].
    intros I. apply in_map_iff in I. destruct I as (b & Q & I). pose proof (radix_range n W a (VL a (or_introl eq_refl)) n 0 ltac:(lia)). pose proof (radix_range n W b (VL b (or_intror I)) n 0 ltac:(lia)).
    unfold code in Q. apply Z2Nat.inj in Q; [|lia|lia]. apply (radix_inj n W) in Q; [subst; auto|apply VL; now right|apply VL; now left]. }
  assert (INC : incl (map code l) (seq 0 (Z.to_nat (sizes W n 0)))).
  { intros k I. apply in_map_iff in I. destruct I as (b & <- & I). pose proof (radix_range n W b (VL b I) n 0 ltac:(lia)). apply in_seq. unfold code. lia. }
  apply NoDup_incl_length in INC; [|exact NP]. now rewrite map_length, seq_length in INC.
Qed.
End Order.
