(** Properties C22-C26: class BitMap (bitmap.h, bitmap.cpp). *)

From Coq Require Import ZArith List Bool Lia.
From Verif Require Import BitsModel BitsSpec BitmapModel BitmapSpec BitmapBase BitmapOps BitmapRange BitmapQuery.
Import ListNotations.
Open Scope Z_scope.

(** Decides [wf] for concrete bitmaps, so that the examples compute. *)
Definition wf_check (b : bitmap) : bool :=
  (0 <=? cap b) && (Z.of_nat (length (words b)) =? (cap b + 63) / 64) &&
  forallb (fun w => (0 <=? w) && (w <? 2 ^ 64)) (words b) &&
  ((cap b mod 64 =? 0) || (List.last (words b) 0 <? 2 ^ (cap b mod 64))).
Lemma wf_check_wf b : wf_check b = true -> wf b.
Proof.
  unfold wf_check. rewrite !andb_true_iff, Z.leb_le, Z.eqb_eq. intros [[[H1 H2] H3] H4].
  assert (F : Forall word (words b)).
  { apply Forall_forall. intros w Hw. rewrite forallb_forall in H3. specialize (H3 w Hw).
    apply andb_true_iff in H3 as [A B]. apply Z.leb_le in A. apply Z.ltb_lt in B. split; auto. }
  repeat split; auto. intros n Hn. rewrite raw_mb.
  destruct (Z.lt_ge_cases n (64 * Z.of_nat (length (words b)))) as [L|L]; [|apply mb_beyond; lia].
  apply orb_true_iff in H4 as [H4|H4]; [apply Z.eqb_eq in H4; dm|]. apply Z.ltb_lt in H4.
  assert (N : cap b mod 64 <> 0) by dm.
  rewrite last_nth in H4. unfold mb. replace (Z.to_nat (n / 64)) with (length (words b) - 1)%nat by dm.
  set (w := nth _ _ _) in *. pose proof (nth_word (words b) (length (words b) - 1) F) as Ww. fold w in Ww.
  destruct (Z.eq_dec w 0) as [E|E]; [rewrite E; apply Z.bits_0|].
  apply Z.bits_above_log2; [unfold word in Ww; lia|].
  apply Z.lt_le_trans with (cap b mod 64); [apply Z.log2_lt_pow2; unfold word in Ww; lia|dm].
Qed.
Ltac wfc := apply wf_check_wf; vm_compute; reflexivity.

(** ** C22: sets under arbitrary histories *)
Theorem C22_make n : 0 <= n -> gives (Some (bm_make n)) n (fun _ => false).
Proof. exact (make_correct n). Qed.
Print Assumptions C22_make.
Example C22_make_ex : 0 <= 130 /\ bm_make 130 = mkb 130 [0; 0; 0].
Proof. split; [lia|reflexivity]. Qed.

Theorem C22_of_list n l : 0 <= n -> Forall (fun i => 0 <= i < n) l ->
  gives (bm_of_list n l) n (fun i => existsb (Z.eqb i) l).
Proof. exact (of_list_correct n l). Qed.
Print Assumptions C22_of_list.
Example C22_of_list_ex : Forall (fun i => 0 <= i < 70) [64; 3; 69] /\ bm_of_list 70 [64; 3; 69] = Some (mkb 70 [8; 33]).
Proof. split; [repeat constructor; lia|reflexivity]. Qed.

(** One operation. *)
Theorem C22_step o b : wf b -> op_legal o (cap b) ->
  gives (op_run o b) (fst (op_set o (cap b, isMember b))) (snd (op_set o (cap b, isMember b))).
Proof. exact (op_run_correct o b). Qed.
Print Assumptions C22_step.
Example C22_step_ex : wf (mkb 130 [5; 0; 2]) /\ op_legal (OFillRange 60 130) 130 /\
  op_run (OFillRange 60 130) (mkb 130 [5; 0; 2]) = Some (mkb 130 [17293822569102704645; 18446744073709551615; 3]).
Proof. split; [wfc|]. split; [cbn; lia|vm_compute; reflexivity]. Qed.

(** Any history. *)
Theorem C22_history l b : wf b -> legal_history l (cap b, isMember b) ->
  gives (run l b) (fst (history_set l (cap b, isMember b))) (snd (history_set l (cap b, isMember b))).
Proof. exact (run_correct l b). Qed.
Print Assumptions C22_history.
Definition C22_h : list op :=
  [OInsert 5; OFlip 6; OComplement; OSetCapacity 70; OExtend true; OClearRange 10 66;
   OAnd (mkb 64 [18446744073709551615]); OSetRange 60 3 5; ORemove 0; OXor (mkb 3 [7]); OFillRange 65 71].
Example C22_history_ex : wf (bm_make 8) /\ legal_history C22_h (8, isMember (bm_make 8)) /\
  run C22_h (bm_make 8) = Some (mkb 71 [5764607523034235033; 126]).
Proof.
  split; [wfc|]. split; [|vm_compute; reflexivity].
  cbn [legal_history C22_h op_legal op_set fst cap].
  repeat match goal with
  | |- _ /\ _ => split
  | |- True => exact I
  | |- wf _ => wfc
  | |- _ => first [lia | vm_compute; discriminate]
  end.
Qed.

(** The result of &= tells whether the intersection is nonempty. *)
Theorem C22_and_flag a b : wf a -> wf b -> cap b <= cap a ->
  exists r any, bm_and a b = Some (r, any) /\
    gives (Some r) (cap a) (fun i => isMember a i && isMember b i) /\
    (any = true <-> exists n, 0 <= n /\ isMember a n = true /\ isMember b n = true).
Proof. exact (and_correct a b). Qed.
Print Assumptions C22_and_flag.
Example C22_and_flag_ex : wf (mkb 130 [5; 1; 2]) /\ wf (mkb 64 [10]) /\ bm_and (mkb 130 [5; 1; 2]) (mkb 64 [10]) = Some (mkb 130 [0; 0; 0], false).
Proof. split; [wfc|]. split; [wfc|reflexivity]. Qed.

(** ** C23: size, rank, select, search *)
Theorem C23_size b : wf b -> size b = count (isMember b) (Z.to_nat (cap b)).
Proof. exact (size_correct b). Qed.
Print Assumptions C23_size.
Example C23_size_ex : wf (mkb 130 [5; 18446744073709551615; 2]) /\ size (mkb 130 [5; 18446744073709551615; 2]) = 67.
Proof. split; [wfc|vm_compute; reflexivity]. Qed.

Theorem C23_position b n : wf b -> 0 <= n <= cap b -> position b n = Some (count (isMember b) (Z.to_nat n)).
Proof. exact (position_correct b n). Qed.
Print Assumptions C23_position.
Example C23_position_ex : wf (mkb 130 [5; 18446744073709551615; 2]) /\
  position (mkb 130 [5; 18446744073709551615; 2]) 70 = Some 8 /\ position (mkb 130 [5; 18446744073709551615; 2]) 130 = Some 67.
Proof. split; [wfc|split; vm_compute; reflexivity]. Qed.

Theorem C23_n_th b i : wf b -> 0 <= i ->
  (i < count (isMember b) (Z.to_nat (cap b)) ->
     0 <= n_th b i < cap b /\ isMember b (n_th b i) = true /\ count (isMember b) (Z.to_nat (n_th b i)) = i) /\
  (count (isMember b) (Z.to_nat (cap b)) <= i -> n_th b i = cap b).
Proof. exact (n_th_correct b i). Qed.
Print Assumptions C23_n_th.
Example C23_n_th_ex : wf (mkb 130 [5; 12; 2]) /\
  (n_th (mkb 130 [5; 12; 2]) 1, n_th (mkb 130 [5; 12; 2]) 3, n_th (mkb 130 [5; 12; 2]) 5) = (2, 67, 130).
Proof. split; [wfc|vm_compute; reflexivity]. Qed.

Theorem C23_front b : wf b -> first_from (isMember b) 0 (cap b) (front b).
Proof. exact (front_correct b). Qed.
Print Assumptions C23_front.
Example C23_front_ex : wf (mkb 130 [0; 12; 2]) /\ front (mkb 130 [0; 12; 2]) = 66.
Proof. split; [wfc|vm_compute; reflexivity]. Qed.

Theorem C23_empty b : wf b -> (empty b = true <-> forall n, 0 <= n -> isMember b n = false).
Proof. exact (empty_correct b). Qed.
Print Assumptions C23_empty.
Example C23_empty_ex : wf (mkb 130 [0; 0; 2]) /\ empty (mkb 130 [0; 0; 2]) = false /\ empty (bm_make 130) = true.
Proof. split; [wfc|split; vm_compute; reflexivity]. Qed.

Theorem C23_full b : wf b -> (full b = true <-> forall n, 0 <= n < cap b -> isMember b n = true).
Proof. exact (full_correct b). Qed.
Print Assumptions C23_full.
Example C23_full_ex : wf (mkb 66 [18446744073709551615; 3]) /\ full (mkb 66 [18446744073709551615; 3]) = true /\
  full (mkb 66 [18446744073709551615; 2]) = false.
Proof. split; [wfc|split; vm_compute; reflexivity]. Qed.

(** back_up; the full statement has no bound on the capacity. *)
Theorem C23_back_up_partial b n : wf b -> cap b <= 2 ^ 32 (* missing: larger capacities *) -> 0 <= n <= cap b ->
  (exists r, back_up b n = Some (Some r) /\ 0 <= r < n /\ isMember b r = true /\ forall i, r < i < n -> isMember b i = false)
  \/ (back_up b n = Some None /\ forall i, 0 <= i < n -> isMember b i = false).
Proof. exact (back_up_correct b n). Qed.
Print Assumptions C23_back_up_partial.
Example C23_back_up_ex : wf (mkb 130 [5; 0; 2]) /\
  (back_up (mkb 130 [5; 0; 2]) 130, back_up (mkb 130 [5; 0; 2]) 129, back_up (mkb 130 [5; 0; 2]) 2, back_up (mkb 130 [5; 0; 2]) 0)
  = (Some (Some 129), Some (Some 2), Some (Some 0), Some None).
Proof. split; [wfc|vm_compute; reflexivity]. Qed.

(** For larger capacities it is false: the result passes through an unsigned int. *)
Theorem C23_back_up_refuted : exists b n, wf b /\ 0 <= n <= cap b /\ isMember b (2 ^ 32) = true /\ 2 ^ 32 < n /\
  back_up b n = Some (Some 0).
Proof.
  assert (K : Z.of_nat (Z.to_nat (2 ^ 26)) = 2 ^ 26) by (apply Z2Nat.id; lia).
  revert K. generalize (Z.to_nat (2 ^ 26)). intros k K.
  destruct (back_up_wraps k K) as (A & B & C).
  exists (mkb (2 ^ 32 + 1) (repeat 0 k ++ [1])), (2 ^ 32 + 1).
  split; [exact A|]. split; [cbn [cap]; lia|]. split; [exact B|]. split; [lia|exact C].
Qed.
Print Assumptions C23_back_up_refuted.

Theorem C23_last_partial b : wf b -> cap b <= 2 ^ 32 (* missing: larger capacities *) -> (exists n, 0 <= n /\ isMember b n = true) ->
  exists r, last b = Some r /\ 0 <= r < cap b /\ isMember b r = true /\ forall i, r < i -> isMember b i = false.
Proof. exact (last_correct b). Qed.
Print Assumptions C23_last_partial.
Example C23_last_ex : wf (mkb 130 [5; 6; 0]) /\ isMember (mkb 130 [5; 6; 0]) 0 = true /\ last (mkb 130 [5; 6; 0]) = Some 66.
Proof. split; [wfc|split; vm_compute; reflexivity]. Qed.

Theorem C23_contains a b : wf a -> wf b -> cap b <= cap a ->
  exists r, contains a b = Some r /\ (r = true <-> forall n, 0 <= n -> isMember b n = true -> isMember a n = true).
Proof. exact (contains_correct a b). Qed.
Print Assumptions C23_contains.
Example C23_contains_ex : wf (mkb 130 [5; 6; 0]) /\ wf (mkb 67 [4; 2]) /\
  contains (mkb 130 [5; 6; 0]) (mkb 67 [4; 2]) = Some true /\ contains (mkb 130 [5; 6; 0]) (mkb 67 [4; 1]) = Some false.
Proof. split; [wfc|split; [wfc|split; vm_compute; reflexivity]]. Qed.

Theorem C23_disjoint a b : wf a -> wf b ->
  (disjoint a b = true <-> forall n, 0 <= n -> isMember a n && isMember b n = false).
Proof. exact (disjoint_correct a b). Qed.
Print Assumptions C23_disjoint.
Example C23_disjoint_ex : wf (mkb 130 [5; 6; 0]) /\ wf (mkb 67 [2; 1]) /\
  disjoint (mkb 130 [5; 6; 0]) (mkb 67 [2; 1]) = true /\ disjoint (mkb 67 [2; 3]) (mkb 130 [5; 6; 0]) = false.
Proof. split; [wfc|split; [wfc|split; vm_compute; reflexivity]]. Qed.

Theorem C23_equal a b : wf a -> wf b -> cap a = cap b ->
  (bm_eqb a b = true <-> forall n, 0 <= n -> isMember a n = isMember b n).
Proof. exact (eqb_correct a b). Qed.
Print Assumptions C23_equal.
Example C23_equal_ex : wf (mkb 67 [2; 1]) /\ bm_eqb (mkb 67 [2; 1]) (mkb 67 [2; 1]) = true /\ bm_eqb (mkb 67 [2; 1]) (mkb 67 [2; 3]) = false.
Proof. split; [wfc|split; vm_compute; reflexivity]. Qed.
(** == looks at the words only, so bitmaps of different capacity may be equal. *)
Theorem C23_equal_capacity_refuted : exists a b, wf a /\ wf b /\ bm_eqb a b = true /\ cap a <> cap b.
Proof. exists (mkb 1 [1]), (mkb 2 [1]). split; [wfc|]. split; [wfc|]. split; [reflexivity|cbn; lia]. Qed.
Print Assumptions C23_equal_capacity_refuted.

(** ** C24: iteration *)
Theorem C24_next b i : wf b -> icap i = cap b -> 0 <= addr i < cap b -> chunk i = addr i / 64 ->
  exists i', it_next (words b) i = Some i' /\ icap i' = cap b /\
    first_from (isMember b) (addr i + 1) (cap b) (addr i') /\ (addr i' < cap b -> chunk i' = addr i' / 64).
Proof. exact (it_next_correct b i). Qed.
Print Assumptions C24_next.
Example C24_next_ex : wf (mkb 200 [9; 0; 4; 0]) /\ it_next [9; 0; 4; 0] (mki 0 3 200) = Some (mki 2 130 200) /\
  it_next [9; 0; 4; 0] (mki 2 130 200) = Some (mki 3 200 200).
Proof. split; [wfc|split; vm_compute; reflexivity]. Qed.

(** The whole traversal, while the body modifies visited positions at will. *)
Theorem C24_traversal body b : mild body -> wf b ->
  exists b', traverse (S (Z.to_nat (cap b))) body b (bm_begin b) = Some (select (isMember b) 0 (Z.to_nat (cap b)), b')
    /\ wf b' /\ cap b' = cap b.
Proof. exact (traverse_correct body b). Qed.
Print Assumptions C24_traversal.
Example C24_traversal_ex : mild (fun a b => match remove b a with Some b' => b' | None => b end) /\ wf (mkb 200 [9; 0; 4; 0]) /\
  traverse 201 (fun a b => match remove b a with Some b' => b' | None => b end) (mkb 200 [9; 0; 4; 0]) (bm_begin (mkb 200 [9; 0; 4; 0]))
  = Some ([0; 3; 130], mkb 200 [0; 0; 0; 0]).
Proof. split; [exact mild_remove|]. split; [wfc|vm_compute; reflexivity]. Qed.
Example C24_traversal_ex2 : mild (fun _ b => b).
Proof. exact mild_nothing. Qed.

(** ** C25: shifts *)
(** Full statement: shift_up b d succeeds, is well formed and has the members
    translated upward, for every d >= 0.  Missing: amounts beyond the vector
    (undefined), and clear unused bits when a member passes the capacity. *)
Theorem C25_shift_up_partial b delta : wf b -> 0 <= delta -> delta / 64 <= Z.of_nat (length (words b)) ->
  exists b', shift_up b delta = Some b' /\ cap b' = cap b /\
    (forall n, 0 <= n -> isMember b' n = (n <? cap b) && (delta <=? n) && isMember b (n - delta)) /\
    ((forall n, isMember b n = true -> n + delta < cap b) \/ cap b mod 64 = 0 -> wf b').
Proof. exact (shift_up_correct b delta). Qed.
Print Assumptions C25_shift_up_partial.
Example C25_shift_up_ex : wf (mkb 130 [9223372036854775809; 1; 0]) /\
  shift_up (mkb 130 [9223372036854775809; 1; 0]) 65 = Some (mkb 130 [0; 2; 3]).
Proof. split; [wfc|vm_compute; reflexivity]. Qed.
(** The bits that pass the capacity stay in the vector and are counted. *)
Theorem C25_shift_up_refuted : exists b d b', wf b /\ shift_up b d = Some b' /\
  (forall n, 0 <= n -> isMember b' n = false) /\ size b' = 1 /\ empty b' = false.
Proof.
  exists (mkb 2 [2]), 1, (mkb 2 [4]). split; [wfc|]. split; [reflexivity|]. split; [|split; reflexivity].
  intros n Hn. destruct (Z.eq_dec n 0) as [->|]; [reflexivity|]. destruct (Z.eq_dec n 1) as [->|]; [reflexivity|].
  apply isMember_beyond. cbn [cap]. lia.
Qed.
Print Assumptions C25_shift_up_refuted.

(** Full statement: for every d >= 0.  Missing: the top word is shifted the wrong
    way, so the claim is restricted to shifts by whole words, shifts by at least
    one word, or an empty top word; and amounts beyond the vector are undefined. *)
Theorem C25_shift_down_partial b delta : wf b -> 0 <= delta -> delta / 64 <= Z.of_nat (length (words b)) ->
  delta mod 64 = 0 \/ 64 <= delta \/
  (forall n, 64 * ((cap b - 1) / 64) <= n -> isMember b n = false) ->
  gives (shift_down b delta) (cap b) (fun n => isMember b (n + delta)).
Proof. exact (shift_down_correct b delta). Qed.
Print Assumptions C25_shift_down_partial.
Example C25_shift_down_ex : wf (mkb 130 [9223372036854775809; 6; 0]) /\
  shift_down (mkb 130 [9223372036854775809; 6; 0]) 2 = Some (mkb 130 [11529215046068469760; 1; 0]).
Proof. split; [wfc|vm_compute; reflexivity]. Qed.
Example C25_shift_down_ex2 : wf (mkb 130 [9223372036854775809; 6; 3]) /\
  shift_down (mkb 130 [9223372036854775809; 6; 3]) 66 = Some (mkb 130 [13835058055282163713; 0; 0]).
Proof. split; [wfc|vm_compute; reflexivity]. Qed.
Theorem C25_shift_down_refuted : exists b d b' n, wf b /\ 0 <= d /\ shift_down b d = Some b' /\ 0 <= n /\
  isMember b' n <> isMember b (n + d).
Proof.
  exists (mkb 64 [2]), 1, (mkb 64 [4]), 0. split; [wfc|]. split; [lia|]. split; [reflexivity|]. split; [lia|].
  vm_compute. discriminate.
Qed.
Print Assumptions C25_shift_down_refuted.

(** ** C26: bit fields *)
Theorem C26_setRange b n r a : wf b -> 0 <= n -> 0 <= r -> 0 <= a -> n mod 64 + r <= 64 -> n + r <= cap b -> n < cap b ->
  gives (setRange b n r a) (cap b) (fun i => if (n <=? i) && (i <? n + r) then Z.testbit a (i - n) else isMember b i).
Proof. exact (setRange_correct b n r a). Qed.
Print Assumptions C26_setRange.
Example C26_setRange_ex : wf (mkb 130 [0; 18446744073709551615; 0]) /\ 100 mod 64 + 4 <= 64 /\
  setRange (mkb 130 [0; 18446744073709551615; 0]) 100 4 21 = Some (mkb 130 [0; 18446743386514784255; 0]).
Proof. split; [wfc|]. split; [vm_compute; discriminate|vm_compute; reflexivity]. Qed.

Theorem C26_range b n r : wf b -> 0 <= n < cap b -> 0 <= r -> n mod 64 + r <= 64 ->
  exists v, range b n r = Some v /\ 0 <= v < 2 ^ r /\ forall i, 0 <= i < r -> Z.testbit v i = isMember b (n + i).
Proof. exact (range_correct b n r). Qed.
Print Assumptions C26_range.
Example C26_range_ex : wf (mkb 130 [0; 18446743386514784255; 0]) /\ range (mkb 130 [0; 18446743386514784255; 0]) 100 4 = Some 5.
Proof. split; [wfc|vm_compute; reflexivity]. Qed.

(** What was written is read back. *)
Theorem C26_round_trip b n r a : wf b -> 0 <= n -> 0 <= r -> 0 <= a -> n mod 64 + r <= 64 -> n + r <= cap b -> n < cap b ->
  exists b', setRange b n r a = Some b' /\ range b' n r = Some (a mod 2 ^ r).
Proof.
  intros W H0 H1 H2 H3 H4 H5. destruct (setRange_correct b n r a W H0 H1 H2 H3 H4 H5) as (b' & E & W' & C & M).
  exists b'. split; [exact E|]. destruct (range_correct b' n r W') as (v & Ev & Rv & Tv); auto; [rewrite C; lia|].
  rewrite Ev. f_equal. apply Z.bits_inj'. intros i Hi. destruct (Z.lt_ge_cases i r) as [L|L].
  - rewrite Tv, M by lia. rewrite Z.mod_pow2_bits_low by lia. rewrite (proj2 (Z.leb_le _ _)), (proj2 (Z.ltb_lt _ _)) by lia.
    cbn [andb]. f_equal. lia.
  - rewrite Z.mod_pow2_bits_high by lia. destruct (Z.eq_dec v 0) as [->|]; [apply Z.bits_0|].
    apply Z.bits_above_log2; [lia|]. apply Z.lt_le_trans with r; [apply Z.log2_lt_pow2; lia|lia].
Qed.
Print Assumptions C26_round_trip.
Example C26_round_trip_ex : wf (mkb 130 [0; 0; 1]) /\ (exists b', setRange (mkb 130 [0; 0; 1]) 120 8 300 = Some b' /\ range b' 120 8 = Some 44).
Proof. split; [wfc|]. exists (mkb 130 [0; 3170534137668829184; 1]). split; vm_compute; reflexivity. Qed.
