(** RankFlags as sets of node numbers, for the Dynkin diagram proofs. *)

From Coq Require Import List Arith ZArith Bool Lia Sorted.
From Verif Require Import VecModel RunModel BitsModel BitsSpec BitsProofs BitmapModel BitmapSpec BitmapBase BitsetModel BitsetSpec BitsetProofs
  LieTypeModel DynkinModel.
Import ListNotations.
Local Open Scope nat_scope.

(** membership, and the list of members *)
Definition mem (a : Z) (i : nat) : bool := Z.testbit a (Z.of_nat i).
Definition els (a : Z) : list nat := filter (mem a) (seq 0 32).

Lemma mem_lt a i : is32 a -> mem a i = true -> i < 32.
Proof.
  intros H M. destruct (le_lt_dec 32 i); [|auto]. unfold mem in M. rewrite is32_testbit in M by (auto; lia). discriminate.
Qed.
Lemma els_in a i : is32 a -> In i (els a) <-> mem a i = true.
Proof.
  intros H. unfold els. rewrite filter_In, in_seq. split; [tauto|]. intros M. split; [|auto]. apply mem_lt in M; auto. lia.
Qed.
Lemma els_nodup a : NoDup (els a).
Proof. apply NoDup_filter, seq_NoDup. Qed.
Global Opaque els.
Lemma is32_0 : is32 0. Proof. unfold is32. lia. Qed.
Lemma mem_0 i : mem 0 i = false. Proof. apply Z.bits_0. Qed.

Lemma nset_ok a i : is32 a -> i < 32 ->
  exists b, nset a i = Ok b /\ is32 b /\ forall j, mem b j = (j =? i) || mem a j.
Proof.
  intros H L. unfold nset. rewrite (proj2 (Nat.ltb_lt _ _)) by lia. eexists; split; [reflexivity|].
  destruct (set1_ok a H (Z.of_nat i) ltac:(lia)) as [W S]. split; [exact W|]. intros j. unfold mem. rewrite S by lia. f_equal.
  destruct (Nat.eqb_spec j i) as [->|N]; [apply Z.eqb_refl|]. apply Z.eqb_neq. lia.
Qed.
Lemma nreset_ok a i : is32 a -> i < 32 -> is32 (nreset a i) /\ forall j, mem (nreset a i) j = negb (j =? i) && mem a j.
Proof.
  intros H L. unfold nreset. destruct (reset1_ok a H (Z.of_nat i) ltac:(lia)) as [W S]. split; [exact W|].
  intros j. unfold mem. rewrite S by lia. do 2 f_equal.
  destruct (Nat.eqb_spec j i) as [->|N]; [apply Z.eqb_refl|]. apply Z.eqb_neq. lia.
Qed.
Lemma ntest_ok a i : ntest a i = mem a i.
Proof. unfold ntest, mem. apply land_eq_mask. lia. Qed.
Lemma and_ok a b : is32 a -> is32 b -> is32 (and1 a b) /\ forall i, mem (and1 a b) i = mem a i && mem b i.
Proof. intros Ha Hb. destruct (and1_ok a b Ha Hb) as [W S]. split; [exact W|]. intros i. apply S. lia. Qed.
Lemma or_ok a b : is32 a -> is32 b -> is32 (or1 a b) /\ forall i, mem (or1 a b) i = mem a i || mem b i.
Proof. intros Ha Hb. destruct (or1_ok a b Ha Hb) as [W S]. split; [exact W|]. intros i. apply S. lia. Qed.
Lemma andnot_ok a b : is32 a -> is32 b -> is32 (andnot1 a b) /\ forall i, mem (andnot1 a b) i = mem a i && negb (mem b i).
Proof. intros Ha Hb. destruct (andnot1_ok a b Ha Hb) as [W S]. split; [exact W|]. intros i. apply S. lia. Qed.

Lemma mem_all_false a : is32 a -> (forall i, mem a i = false) -> a = 0%Z.
Proof.
  intros H F. apply (is32_zero a H). intros i Hi. specialize (F (Z.to_nat i)). unfold mem in F. rewrite Z2Nat.id in F by lia. exact F.
Qed.
Lemma any_iff a : is32 a -> any1 a = true <-> exists i, mem a i = true.
Proof.
  intros H. unfold any1. destruct (Z.eqb_spec a 0) as [->|N]; cbn [negb].
  - split; [discriminate|]. intros [i E]. rewrite mem_0 in E. discriminate.
  - split; [|auto]. intros _. destruct (els a) as [|x l] eqn:E.
    + exfalso. apply N. apply mem_all_false; auto. intros i. destruct (mem a i) eqn:M; [|auto].
      apply (els_in a i H) in M. rewrite E in M. destruct M.
    + exists x. apply (proj1 (els_in a x H)). rewrite E. left. reflexivity.
Qed.
Lemma any_false a : is32 a -> any1 a = false <-> forall i, mem a i = false.
Proof.
  intros H. pose proof (any_iff a H) as A. destruct (any1 a).
  - split; [discriminate|]. intros F. destruct (proj1 A eq_refl) as [i E]. rewrite F in E. discriminate.
  - split; [|auto]. intros _ i. destruct (mem a i) eqn:E; [|auto]. assert (false = true) by (apply A; eauto). discriminate.
Qed.
Lemma none_any a : none1 a = negb (any1 a).
Proof. unfold none1, any1. rewrite negb_involutive. reflexivity. Qed.

Local Transparent els.
Lemma count_filter P k : count P k = Z.of_nat (length (filter (fun i => P (Z.of_nat i)) (seq 0 k))).
Proof.
  induction k as [|k IH]; [reflexivity|]. cbn [count]. rewrite IH, seq_S, filter_app, app_length. cbn.
  destruct (P (Z.of_nat k)); cbn [length]; lia.
Qed.
Lemma ncount_ok a : is32 a -> ncount a = length (els a).
Proof. intros H. unfold ncount. rewrite count1_ok by auto. rewrite count_filter, Nat2Z.id. unfold els, mem. reflexivity. Qed.

Lemma nfirst_ok a i : is32 a -> mem a i = true ->
  mem a (nfirst a) = true /\ nfirst a <= i /\ forall j, j < nfirst a -> mem a j = false.
Proof.
  intros H M. unfold nfirst. destruct (firstBit1_ok a H) as [[E _]|(R & T & L)].
  - subst a. rewrite mem_0 in M. discriminate.
  - assert (F : forall j, j < Z.to_nat (firstBit1 a) -> mem a j = false) by (intros j Hj; apply L; lia).
    split; [unfold mem; rewrite Z2Nat.id by lia; exact T|]. split; [|exact F].
    destruct (le_lt_dec (Z.to_nat (firstBit1 a)) i); [auto|]. rewrite F in M by lia. discriminate.
Qed.

Lemma seq_split n m : m <= n -> seq 0 n = seq 0 m ++ seq m (n - m).
Proof. intros L. rewrite <- seq_app. f_equal. lia. Qed.
Lemma nlist_ok a : is32 a -> nlist a = els a.
Proof.
  intros H. unfold nlist, els.
  pose proof (for_bits_spec (fun i _ l => Z.to_nat i :: l)
    (fun m l => rev l = filter (mem a) (seq 0 (Z.to_nat m))) a (is32_word a H)) as F. cbv beta in F.
  specialize (F ltac:(intros m acc Hm T E; cbn [rev]; rewrite E; replace (Z.to_nat (m + 1)) with (S (Z.to_nat m)) by lia;
    rewrite seq_S, filter_app; cbn; unfold mem at 3; rewrite Z2Nat.id, T by lia; reflexivity)).
  specialize (F ltac:(intros m acc Hm T E; rewrite E; replace (Z.to_nat (m + 1)) with (S (Z.to_nat m)) by lia;
    rewrite seq_S, filter_app; cbn; unfold mem at 3; rewrite Z2Nat.id, T by lia; rewrite app_nil_r; reflexivity)).
  specialize (F [] eq_refl). rewrite F. change (Z.to_nat 64) with (32 + 32). rewrite seq_app, filter_app.
  assert (E : filter (mem a) (seq (0 + 32) 32) = []).
  { assert (G : forall l, (forall x, In x l -> mem a x = false) -> filter (mem a) l = []).
    { induction l as [|x l IH]; intros G; [reflexivity|]. cbn [filter]. rewrite (G x) by (left; auto). apply IH.
      intros; apply G; right; auto. }
    apply G. intros x Hx. apply in_seq in Hx. unfold mem. apply is32_testbit; [auto|lia]. }
  rewrite E, app_nil_r. reflexivity.
Qed.

Global Opaque els.
Lemma lt_mask_ok a i : is32 a -> (Z.land a (lt_mask (Z.of_nat i)) =? 0)%Z = true <-> forall j, j < i -> mem a j = false.
Proof.
  intros H. rewrite Z.eqb_eq. split.
  - intros E j Hj. assert (B : Z.testbit (Z.land a (lt_mask (Z.of_nat i))) (Z.of_nat j) = false) by (rewrite E; apply Z.bits_0).
    rewrite Z.land_spec in B. apply andb_false_iff in B as [B|B]; [exact B|].
    rewrite lt_mask_testbit in B by lia. apply Z.ltb_ge in B. lia.
  - intros F. apply Z.bits_inj'. intros k Hk. rewrite Z.land_spec, Z.bits_0, lt_mask_testbit by lia.
    destruct (Z.ltb_spec k (Z.of_nat i)); [|apply andb_false_r].
    specialize (F (Z.to_nat k) ltac:(lia)). unfold mem in F. rewrite Z2Nat.id in F by lia. rewrite F. reflexivity.
Qed.
