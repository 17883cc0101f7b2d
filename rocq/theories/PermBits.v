(** Permutations acting on bit sets and bitmaps. *)

From Coq Require Import List Arith Bool ZArith Lia.
From Verif Require Import BitmapModel BitmapSpec BitmapBase BitmapOps BitmapQuery BitsetModel BitsetSpec BitsetProofs.
From Verif Require Import VecModel VecProofs PermModel PermSpec PermProofs.
Import ListNotations.
Open Scope nat_scope.

Lemma pull_back_bits_ok n p v : is_perm n p -> n <= 32 -> is32 v ->
  exists r, pull_back_bits p v = Some r /\ is32 r /\
    (forall i j, get p i = Some j -> Z.testbit r (Z.of_nat i) = Z.testbit v (Z.of_nat j)) /\
    (forall i, (Z.of_nat n <= i)%Z -> Z.testbit r i = false).
Proof.
  intros H Hn Hv. unfold pull_back_bits. rewrite (perm_len _ _ H).
  destruct (for_up_rule (fun k r => is32 r /\ (forall i j, i < k -> get p i = Some j -> Z.testbit r (Z.of_nat i) = Z.testbit v (Z.of_nat j)) /\
     (forall i, (Z.of_nat k <= i)%Z -> Z.testbit r i = false)) n 0
   (fun i r => match get p i with Some p => Some (set_to1 r (Z.of_nat i) (test1 v (Z.of_nat p))) | None => None end) 0%Z) as (r & E & R).
  - split; [unfold is32; lia|]. split; [intros; lia|]. intros. apply Z.testbit_0_l.
  - intros i r Hi (Hr & G & F). destruct (perm_get _ _ H i) as (x & Ex & Hx); [lia|]. rewrite Ex. eexists. split; [reflexivity|].
    rewrite test1_ok by lia. destruct (set_to1_ok r Hr (Z.of_nat i) (Z.testbit v (Z.of_nat x))) as [O B]; [lia|].
    split; [exact O|]. split.
    + intros k j Hk Ek. rewrite B by lia. destruct (Z.eqb_spec (Z.of_nat k) (Z.of_nat i)) as [C|C].
      * assert (k = i) by lia. subst k. congruence.
      * apply G; [lia|exact Ek].
    + intros k Hk. rewrite B by lia. destruct (Z.eqb_spec k (Z.of_nat i)); [lia|]. apply F. lia.
  - exists r. split; [exact E|]. destruct R as (R1 & R2 & R3). split; [exact R1|]. split; [|exact R3].
    intros i j Ej. apply R2; [|exact Ej]. apply (perm_lt _ _ H) in Ej. lia.
Qed.
Lemma permute_bits_ok n p v : is_perm n p -> n <= 32 -> is32 v ->
  exists r, permute_bits p v = Some r /\ is32 r /\
    (forall i j, get p i = Some j -> Z.testbit r (Z.of_nat j) = Z.testbit v (Z.of_nat i)) /\
    (forall i, (Z.of_nat n <= i)%Z -> Z.testbit r i = false).
Proof.
  intros H Hn Hv. unfold permute_bits. rewrite (perm_len _ _ H).
  destruct (for_up_rule (fun k r => is32 r /\ (forall i j, i < k -> get p i = Some j -> Z.testbit r (Z.of_nat j) = Z.testbit v (Z.of_nat i)) /\
     (forall i, (Z.of_nat n <= i)%Z -> Z.testbit r i = false)) n 0
   (fun i r => match get p i with Some p => Some (set_to1 r (Z.of_nat p) (test1 v (Z.of_nat i))) | None => None end) 0%Z) as (r & E & R).
  - split; [unfold is32; lia|]. split; [intros; lia|]. intros. apply Z.testbit_0_l.
  - intros i r Hi (Hr & G & F). destruct (perm_get _ _ H i) as (x & Ex & Hx); [lia|]. rewrite Ex. eexists. split; [reflexivity|].
    rewrite test1_ok by lia. destruct (set_to1_ok r Hr (Z.of_nat x) (Z.testbit v (Z.of_nat i))) as [O B]; [lia|].
    split; [exact O|]. split.
    + intros k j Hk Ek. rewrite B by lia. destruct (Z.eqb_spec (Z.of_nat j) (Z.of_nat x)) as [C|C].
      * assert (j = x) by lia. subst j. assert (k = i) by (eapply perm_inj; eauto). congruence.
      * apply G; [|exact Ek]. assert (k <> i) by (intros ->; apply C; congruence). lia.
    + intros k Hk. rewrite B by lia. destruct (Z.eqb_spec k (Z.of_nat x)); [lia|]. apply F. lia.
  - exists r. split; [exact E|]. destruct R as (R1 & R2 & R3). split; [exact R1|]. split; [|exact R3].
    intros i j Ej. apply R2; [|exact Ej]. apply (perm_lt _ _ H) in Ej. lia.
Qed.

Lemma select_spec P lo k i : (lo <= i < lo + Z.of_nat k)%Z -> P i = true -> In i (select P lo k).
Proof.
  revert lo. induction k as [|k IH]; intros lo Hi Pi; [lia|]. cbn [select]. destruct (Z.eq_dec lo i) as [->|N].
  - rewrite Pi. left. reflexivity.
  - assert (In i (select P (lo + 1) k)) by (apply IH; [lia|exact Pi]). destruct (P lo); [right|]; auto.
Qed.
Lemma select_In P lo k i : In i (select P lo k) -> (lo <= i < lo + Z.of_nat k)%Z /\ P i = true.
Proof.
  revert lo. induction k as [|k IH]; intros lo Hi; [destruct Hi|]. cbn [select] in Hi. destruct (P lo) eqn:E.
  - destruct Hi as [<-|Hi]; [split; [lia|exact E]|]. apply IH in Hi. split; [lia|apply Hi].
  - apply IH in Hi. split; [lia|apply Hi].
Qed.
Lemma mild_id : mild (fun _ c => c).
Proof. intros a b Wb Ha. auto. Qed.
Lemma renumbering_map_ok n p b : is_perm n p -> wf b -> (cap b <= Z.of_nat n)%Z ->
  exists r, renumbering_map p b = Some r /\ wf r /\ cap r = Z.of_nat n /\
    forall j, j < n -> (isMember r (Z.of_nat j) = true <-> exists i, get p i = Some j /\ isMember b (Z.of_nat i) = true).
Proof.
  intros H Wb Cb. unfold renumbering_map. assert (Lp := perm_len _ _ H). rewrite Lp.
  destruct (traverse_correct (fun _ c => c) b mild_id Wb) as (b' & E & _). rewrite E. clear E.
  set (l := select (isMember b) 0 (Z.to_nat (cap b))).
  destruct (for_each_rule (fun q r => wf r /\ cap r = Z.of_nat n /\ forall j, j < n ->
      (isMember r (Z.of_nat j) = true <-> exists x, In x q /\ get p (Z.to_nat x) = Some j)) l
     (fun x r => match get p (Z.to_nat x) with Some y => insert r (Z.of_nat y) | None => None end) (bm_make (Z.of_nat n))) as (r & E & Wr & Cr & Mr).
  - destruct (make_correct (Z.of_nat n)) as (b0 & E0 & W0 & C0 & M0); [lia|]. injection E0 as <-. split; [exact W0|].
    split; [exact C0|]. intros j Hj. rewrite M0 by lia. split; [discriminate|]. intros (x & [] & _).
  - intros q x q' r El (Wr & Cr & Mr).
    assert (Ix : In x l) by (rewrite El; apply in_or_app; right; left; reflexivity). unfold l in Ix. apply select_In in Ix.
    destruct Wb as (C0 & _). destruct (perm_get _ _ H (Z.to_nat x)) as (y & Ey & Hy); [lia|]. rewrite Ey.
    destruct (insert_correct r (Z.of_nat y) Wr) as (r' & Er & Wr' & Cr' & Mr'); [lia|]. exists r'. split; [exact Er|].
    split; [exact Wr'|]. split; [congruence|]. intros j Hj. rewrite Mr' by lia. rewrite orb_true_iff, (Mr j Hj), Z.eqb_eq. split.
    + intros [C|(z & Iz & Gz)].
      * exists x. split; [apply in_or_app; right; left; reflexivity|]. replace j with y by lia. exact Ey.
      * exists z. split; [apply in_or_app; left; exact Iz|exact Gz].
    + intros (z & Iz & Gz). apply in_app_or in Iz as [Iz|[<-|[]]]; [right; eauto|]. left. rewrite Ey in Gz. injection Gz as ->. reflexivity.
  - exists r. split; [exact E|]. split; [exact Wr|]. split; [exact Cr|]. intros j Hj. rewrite (Mr j Hj). unfold l. split.
    + intros (x & Ix & Gx). apply select_In in Ix. exists (Z.to_nat x). split; [exact Gx|]. rewrite Z2Nat.id by lia. apply Ix.
    + intros (i & Gi & Bi). exists (Z.of_nat i). rewrite Nat2Z.id. split; [|exact Gi]. apply select_spec; [|exact Bi].
      assert (Z.of_nat i < cap b)%Z; [|lia]. destruct (Z.lt_ge_cases (Z.of_nat i) (cap b)) as [C|C]; [exact C|].
      exfalso. unfold isMember in Bi. rewrite (proj2 (Z.leb_le _ _) C) in Bi; discriminate.
Qed.
Lemma fixed_points_ok n p : is_perm n p ->
  gives (fixed_points p) (Z.of_nat n) (fun i => (i <? Z.of_nat n)%Z && match get p (Z.to_nat i) with Some j => j =? Z.to_nat i | None => false end).
Proof.
  intros H. unfold fixed_points. rewrite (perm_len _ _ H).
  destruct (for_up_rule (fun k r => wf r /\ cap r = Z.of_nat n /\ forall i, (0 <= i)%Z ->
      isMember r i = (i <? Z.of_nat k)%Z && match get p (Z.to_nat i) with Some j => j =? Z.to_nat i | None => false end) n 0
     (fun i r => match get p i with Some p => if p =? i then insert r (Z.of_nat i) else Some r | None => None end) (bm_make (Z.of_nat n))) as (r & E & Wr & Cr & Mr).
  - destruct (make_correct (Z.of_nat n)) as (b0 & E0 & W0 & C0 & M0); [lia|]. injection E0 as <-. split; [exact W0|].
    split; [exact C0|]. intros i Hi. rewrite M0 by lia. destruct (Z.ltb_spec i (Z.of_nat 0)); [lia|reflexivity].
  - intros i r Hi (Wr & Cr & Mr). destruct (perm_get _ _ H i) as (x & Ex & Hx); [lia|]. rewrite Ex.
    destruct (Nat.eqb_spec x i) as [->|N].
    + destruct (insert_correct r (Z.of_nat i) Wr) as (r' & Er & Wr' & Cr' & Mr'); [lia|]. exists r'. split; [exact Er|].
      split; [exact Wr'|]. split; [congruence|]. intros j Hj. rewrite Mr', Mr by lia.
      destruct (Z.eqb_spec j (Z.of_nat i)) as [->|].
      * rewrite Nat2Z.id, Ex, Nat.eqb_refl. destruct (Z.ltb_spec (Z.of_nat i) (Z.of_nat (S i))); [reflexivity|lia].
      * destruct (Z.ltb_spec j (Z.of_nat i)), (Z.ltb_spec j (Z.of_nat (S i))); try lia; reflexivity.
    + exists r. split; [reflexivity|]. split; [exact Wr|]. split; [exact Cr|]. intros j Hj. rewrite Mr by lia.
      destruct (Z.ltb_spec j (Z.of_nat i)), (Z.ltb_spec j (Z.of_nat (S i))); try lia; try reflexivity.
      assert (j = Z.of_nat i) by lia. subst j. rewrite Nat2Z.id, Ex. destruct (Nat.eqb_spec x i); [lia|reflexivity].
  - exists r. split; [exact E|]. auto.
Qed.
