(** Properties C28 (group), C29 (permuting data), C30 (standardization). *)

From Coq Require Import List Arith Bool ZArith Lia Permutation Sorted.
From Verif Require Import BitmapModel BitmapSpec BitsetSpec.
From Verif Require Import VecModel PermModel PermSpec PermProofs PermCycles PermSort PermBits.
Import ListNotations.
Open Scope nat_scope.

(** decide is_perm on examples *)
Ltac isp := split; [reflexivity|]; split;
  [repeat constructor; cbn; intuition discriminate | cbn; intuition lia].

(** ** C28 *)
Theorem C28_identity n : identity n = Some (seq 0 n) /\ is_perm n (seq 0 n).
Proof. exact (conj (identity_ok n) (is_perm_seq n)). Qed.
Print Assumptions C28_identity.
Example C28_identity_ex : identity 4 = Some [0; 1; 2; 3].
Proof. reflexivity. Qed.

Theorem C28_inverse n p : is_perm n p -> exists q, inverse p = Some q /\ is_perm n q /\
  forall i j, get q j = Some i <-> get p i = Some j.
Proof. exact (inverse_ok n p). Qed.
Print Assumptions C28_inverse.
Example C28_inverse_ex : is_perm 5 [2; 0; 4; 3; 1] /\ inverse [2; 0; 4; 3; 1] = Some [1; 4; 0; 3; 2].
Proof. split; [isp|reflexivity]. Qed.

Theorem C28_compose N M a b n : is_perm N a -> is_perm M b -> n + M <= N ->
  exists r, compose a b n = Some r /\ is_perm N r /\
    (forall j, j < M -> exists x, get b j = Some x /\ get r (n + j) = get a (n + x)) /\
    (forall j, j < n \/ n + M <= j -> get r j = get a j).
Proof. exact (compose_ok N M a b n). Qed.
Print Assumptions C28_compose.
Example C28_compose_ex : is_perm 5 [2; 0; 4; 3; 1] /\ is_perm 3 [1; 2; 0] /\ compose [2; 0; 4; 3; 1] [1; 2; 0] 1 = Some [2; 4; 3; 0; 1].
Proof. split; [isp|]. split; [isp|reflexivity]. Qed.

Theorem C28_group_laws n a b c : is_perm n a -> is_perm n b -> is_perm n c ->
  exists e a' ab bc abc,
    identity n = Some e /\ inverse a = Some a' /\ compose a b 0 = Some ab /\ compose b c 0 = Some bc /\
    compose ab c 0 = Some abc /\ compose a bc 0 = Some abc /\
    compose a e 0 = Some a /\ compose e a 0 = Some a /\
    compose a a' 0 = Some e /\ compose a' a 0 = Some e.
Proof. exact (group_laws n a b c). Qed.
Print Assumptions C28_group_laws.
Example C28_group_laws_ex : is_perm 3 [1; 2; 0] /\ is_perm 3 [0; 2; 1] /\ compose [1; 2; 0] [0; 2; 1] 0 = Some [1; 0; 2] /\
  compose [0; 2; 1] [1; 2; 0] 0 = Some [2; 1; 0].
Proof. split; [isp|]. split; [isp|split; reflexivity]. Qed.

Theorem C28_is_identity p : is_identity p = true <-> p = seq 0 (length p).
Proof. exact (is_identity_ok p). Qed.
Print Assumptions C28_is_identity.
Example C28_is_identity_ex : is_identity [0; 1; 2] = true /\ is_identity [0; 2; 1] = false.
Proof. split; reflexivity. Qed.

(** The sign is the parity of the number of inversions. *)
Theorem C28_is_negative n p : is_perm n p -> is_negative p = Some (Nat.odd (inversions p)).
Proof. exact (is_negative_ok n p). Qed.
Print Assumptions C28_is_negative.
Example C28_is_negative_ex : is_perm 6 [3; 0; 5; 1; 4; 2] /\ is_negative [3; 0; 5; 1; 4; 2] = Some true /\ inversions [3; 0; 5; 1; 4; 2] = 7.
Proof. split; [isp|split; reflexivity]. Qed.

Theorem C28_sign_homomorphism n a b : is_perm n a -> is_perm n b -> exists r s t, compose a b 0 = Some r /\
  is_negative a = Some s /\ is_negative b = Some t /\ is_negative r = Some (xorb s t).
Proof. exact (sign_hom n a b). Qed.
Print Assumptions C28_sign_homomorphism.
Example C28_sign_homomorphism_ex : is_perm 3 [1; 2; 0] /\ is_perm 3 [0; 2; 1] /\ is_negative [1; 2; 0] = Some false /\ is_negative [0; 2; 1] = Some true /\ is_negative [1; 0; 2] = Some true.
Proof. split; [isp|]. split; [isp|]. repeat split. Qed.

Theorem C28_fixed_points n p : is_perm n p ->
  gives (fixed_points p) (Z.of_nat n) (fun i => (i <? Z.of_nat n)%Z && match get p (Z.to_nat i) with Some j => j =? Z.to_nat i | None => false end).
Proof. exact (fixed_points_ok n p). Qed.
Print Assumptions C28_fixed_points.
Example C28_fixed_points_ex : is_perm 5 [2; 1; 0; 3; 4] /\ fixed_points [2; 1; 0; 3; 4] = Some (mkb 5 [26%Z]).
Proof. split; [isp|reflexivity]. Qed.

(** ** C29 *)
Theorem C29_permute {A} n p (v : list A) : is_perm n p -> n <= length v ->
  exists r, permute p v = Some r /\ length r = length v /\
    (forall i j, get p i = Some j -> get r j = get v i) /\ (forall i, n <= i -> get r i = get v i).
Proof. exact (permute_correct n p v). Qed.
Print Assumptions C29_permute.
Example C29_permute_ex : is_perm 5 [2; 0; 4; 3; 1] /\ permute [2; 0; 4; 3; 1] [10; 11; 12; 13; 14; 15] = Some [11; 14; 10; 13; 12; 15].
Proof. split; [isp|reflexivity]. Qed.

Theorem C29_pull_back {A} p (v : list A) : Forall (fun x => x < length v) p ->
  exists r, pull_back p v = Some r /\ length r = length p /\ forall i x, get p i = Some x -> get r i = get v x.
Proof. exact (pull_back_ok p v). Qed.
Print Assumptions C29_pull_back.
Example C29_pull_back_ex : Forall (fun x => x < length [10; 11; 12; 13; 14]) [2; 0; 4; 3; 1] /\ pull_back [2; 0; 4; 3; 1] [10; 11; 12; 13; 14] = Some [12; 10; 14; 13; 11].
Proof. split; [repeat constructor|reflexivity]. Qed.

(** permute is pulling back through the inverse; each undoes the other. *)
Theorem C29_permute_pull_back {A} n p (v : list A) : is_perm n p -> length v = n ->
  exists q w, inverse p = Some q /\ permute p v = Some w /\ pull_back q v = Some w /\ pull_back p w = Some v.
Proof. exact (permute_pull_back n p v). Qed.
Print Assumptions C29_permute_pull_back.
Example C29_permute_pull_back_ex : is_perm 3 [1; 2; 0] /\ permute [1; 2; 0] [10; 11; 12] = Some [12; 10; 11] /\
  pull_back [1; 2; 0] [12; 10; 11] = Some [10; 11; 12].
Proof. split; [isp|split; reflexivity]. Qed.
Theorem C29_pull_back_permute {A} n p (v : list A) : is_perm n p -> length v = n ->
  exists w, pull_back p v = Some w /\ permute p w = Some v.
Proof. exact (pull_back_permute n p v). Qed.
Print Assumptions C29_pull_back_permute.
Example C29_pull_back_permute_ex : pull_back [1; 2; 0] [10; 11; 12] = Some [11; 12; 10] /\ permute [1; 2; 0] [11; 12; 10] = Some [10; 11; 12].
Proof. split; reflexivity. Qed.

Theorem C29_permute_action {A} n a b (v : list A) : is_perm n a -> is_perm n b -> length v = n ->
  exists ab w r, compose a b 0 = Some ab /\ permute b v = Some w /\ permute a w = Some r /\ permute ab v = Some r.
Proof. exact (permute_action n a b v). Qed.
Print Assumptions C29_permute_action.
Example C29_permute_action_ex : permute [0; 2; 1] [10; 11; 12] = Some [10; 12; 11] /\ permute [1; 2; 0] [10; 12; 11] = Some [11; 10; 12] /\
  permute [1; 0; 2] [10; 11; 12] = Some [11; 10; 12].
Proof. repeat split. Qed.

Theorem C29_renumbering p v : Forall (fun x => x < length p) v ->
  exists r, renumbering p v = Some r /\ length r = length v /\ forall i x, get v i = Some x -> get r i = get p x.
Proof. exact (renumbering_ok p v). Qed.
Print Assumptions C29_renumbering.
Theorem C29_renumber p v : Forall (fun x => x < length p) v ->
  exists r, renumber p v = Some r /\ length r = length v /\ forall i x, get v i = Some x -> get r i = get p x.
Proof. exact (renumber_ok p v). Qed.
Print Assumptions C29_renumber.
Example C29_renumber_ex : Forall (fun x => x < 3) [2; 2; 0; 1] /\ renumber [1; 2; 0] [2; 2; 0; 1] = Some [0; 0; 1; 2] /\
  renumbering [1; 2; 0] [2; 2; 0; 1] = Some [0; 0; 1; 2].
Proof. split; [repeat constructor|split; reflexivity]. Qed.
Theorem C29_renumber_except p v e : Forall (fun x => x = e \/ x < length p) v ->
  exists r, renumber_except p v e = Some r /\ length r = length v /\
    forall i x, get v i = Some x -> get r i = if x =? e then Some e else get p x.
Proof. exact (renumber_except_ok p v e). Qed.
Print Assumptions C29_renumber_except.
Example C29_renumber_except_ex : Forall (fun x => x = 99 \/ x < 3) [2; 99; 0; 1] /\ renumber_except [1; 2; 0] [2; 99; 0; 1] 99 = Some [0; 99; 1; 2].
Proof. split; [repeat constructor; lia|reflexivity]. Qed.
Theorem C29_renumbering_map n p b : is_perm n p -> wf b -> (cap b <= Z.of_nat n)%Z ->
  exists r, renumbering_map p b = Some r /\ wf r /\ cap r = Z.of_nat n /\
    forall j, j < n -> (isMember r (Z.of_nat j) = true <-> exists i, get p i = Some j /\ isMember b (Z.of_nat i) = true).
Proof. exact (renumbering_map_ok n p b). Qed.
Print Assumptions C29_renumbering_map.
Example C29_renumbering_map_ex : is_perm 5 [2; 0; 4; 3; 1] /\ renumbering_map [2; 0; 4; 3; 1] (mkb 5 [11%Z]) = Some (mkb 5 [13%Z]).
Proof. split; [isp|reflexivity]. Qed.
Theorem C29_pull_back_bits n p v : is_perm n p -> n <= 32 -> is32 v ->
  exists r, pull_back_bits p v = Some r /\ is32 r /\
    (forall i j, get p i = Some j -> Z.testbit r (Z.of_nat i) = Z.testbit v (Z.of_nat j)) /\
    (forall i, (Z.of_nat n <= i)%Z -> Z.testbit r i = false).
Proof. exact (pull_back_bits_ok n p v). Qed.
Print Assumptions C29_pull_back_bits.
Theorem C29_permute_bits n p v : is_perm n p -> n <= 32 -> is32 v ->
  exists r, permute_bits p v = Some r /\ is32 r /\
    (forall i j, get p i = Some j -> Z.testbit r (Z.of_nat j) = Z.testbit v (Z.of_nat i)) /\
    (forall i, (Z.of_nat n <= i)%Z -> Z.testbit r i = false).
Proof. exact (permute_bits_ok n p v). Qed.
Print Assumptions C29_permute_bits.
Example C29_bits_ex : is_perm 5 [2; 0; 4; 3; 1] /\ is32 11 /\ permute_bits [2; 0; 4; 3; 1] 11%Z = Some 13%Z /\ pull_back_bits [2; 0; 4; 3; 1] 13%Z = Some 11%Z.
Proof. split; [isp|]. split; [unfold is32; lia|split; reflexivity]. Qed.

(** ** C30 *)
Theorem C30_standardization a bound : Forall (fun x => x < bound) a ->
  exists r stops, standardization a bound = Some (r, stops) /\ is_perm (length a) r /\
    (forall i j x y k l, get a i = Some x -> get a j = Some y -> get r i = Some k -> get r j = Some l ->
     (k < l <-> x < y \/ x = y /\ i < j)) /\
    length stops = S bound /\ (forall x, x <= bound -> get stops x = Some (card (fun y => y <? x) a)).
Proof. exact (standardization_ok a bound). Qed.
Print Assumptions C30_standardization.
Example C30_standardization_ex : Forall (fun x => x < 5) [3; 1; 3; 0; 1; 1] /\ standardization [3; 1; 3; 0; 1; 1] 5 = Some ([4; 1; 5; 0; 2; 3], [0; 1; 4; 4; 6; 6]).
Proof. split; [repeat constructor|reflexivity]. Qed.

Theorem C30_sorts a bound : Forall (fun x => x < bound) a ->
  exists r stops w, standardization a bound = Some (r, stops) /\ permute r a = Some w /\ Permutation a w /\ StronglySorted le w.
Proof. exact (standardization_sorts a bound). Qed.
Print Assumptions C30_sorts.
Example C30_sorts_ex : permute [4; 1; 5; 0; 2; 3] [3; 1; 3; 0; 1; 1] = Some [0; 1; 1; 1; 3; 3].
Proof. reflexivity. Qed.

Theorem C30_standardization_by {A} (less : A -> A -> bool) (a : list A) : strict_weak less ->
  exists r, standardization_by less a = Some r /\ is_perm (length a) r /\
  forall i j x y k l, get a i = Some x -> get a j = Some y -> get r i = Some k -> get r j = Some l ->
    (k < l <-> less x y = true \/ less y x = false /\ i < j).
Proof. exact (fun H => standardization_by_ok less H a). Qed.
Print Assumptions C30_standardization_by.
Example C30_standardization_by_ex : strict_weak (fun x y => y / 10 <? x / 10) /\
  standardization_by (fun x y => y / 10 <? x / 10) [31; 15; 30; 2; 11; 39] = Some [0; 3; 1; 5; 4; 2].
Proof.
  split; [|reflexivity]. split; [intros; apply Nat.ltb_irrefl|]. split.
  - intros x y z. rewrite !Nat.ltb_lt. lia.
  - intros x y z. rewrite !Nat.ltb_ge. lia.
Qed.
