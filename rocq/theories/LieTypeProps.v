(** C88-C90: Cartan matrices and determinants of Lie types, involutions of inner classes, duals. *)

From Coq Require Import List Arith ZArith Bool Lia Permutation.
From Verif Require Import VecModel RunModel RunProofs MatModel MatSpec MatProofs LieTypeModel LieTypeSpec LieTypeProofs LieTypeDet
  LieTypeInv LieTypeInner LieTypeDual.
Import ListNotations.
Local Open Scope nat_scope.

(** * C88: Cartan matrices *)
(** each entry is that of the block diagonal matrix of the Dynkin diagrams of the factors, and 0 out of bounds *)
Theorem C88_entry (lt : lietype) (i j : nat) : valid_type lt -> Forall (fun s => (Z.of_nat (snd s) < 2 ^ 32)%Z) lt ->
  lt_entry lt i j = block_diagonal lt i j.
Proof. intros V SM. apply lt_entry_ok; assumption. Qed.
Theorem C88_simple_entry (s : simple) (i j : nat) : valid_rank (fst s) (snd s) -> (Z.of_nat (snd s) < 2 ^ 32)%Z -> i < snd s -> j < snd s ->
  simple_entry s i j = simple_matrix s i j.
Proof. apply simple_entry_ok. Qed.
Example C88_entry_ex :
  valid_type [(tC, 3); (tT, 1); (tE, 6)] /\ lt_entry [(tC, 3); (tT, 1); (tE, 6)] 2 1 = (-2)%Z /\
  lt_entry [(tC, 3); (tT, 1); (tE, 6)] 3 3 = 0%Z /\ lt_entry [(tC, 3); (tT, 1); (tE, 6)] 4 6 = (-1)%Z.
Proof. split; [repeat constructor; cbn; lia|]. vm_compute. auto. Qed.
Theorem C88_simple_matrix (s : simple) : valid_rank (fst s) (snd s) -> (Z.of_nat (snd s) < 2 ^ 32)%Z ->
  gives (simple_Cartan s) (fun M => is_mx M (snd s) (snd s) (simple_matrix s)) never /\
  gives (simple_transpose_Cartan s) (fun M => is_mx M (snd s) (snd s) (fun i j => simple_matrix s j i)) never.
Proof. intros V SM. split; [apply simple_Cartan_ok|apply simple_transpose_Cartan_ok]; assumption. Qed.
(** the matrix of a Lie type: transposed with the torus factors, straight without them *)
Theorem C88_matrix (lt : lietype) : valid_type lt -> Forall (fun s => (Z.of_nat (snd s) < 2 ^ 32)%Z) lt ->
  gives (true_Cartan lt) (fun M => is_mx M (total (derived lt)) (total (derived lt)) (block_diagonal (derived lt))) never /\
  gives (lt_transpose_Cartan lt) (fun M => is_mx M (total lt) (total lt) (fun i j => block_diagonal lt j i)) never.
Proof. intros V SM. split; [apply true_Cartan_ok|apply lt_transpose_Cartan_ok]; assumption. Qed.
Example C88_matrix_ex :
  valid_type [(tT, 1); (tB, 2); (tG, 2)] /\
  true_Cartan [(tT, 1); (tB, 2); (tG, 2)] =
    Ok (mk_mat 4 4 [2; -2; 0; 0;  -1; 2; 0; 0;  0; 0; 2; -1;  0; 0; -3; 2]%Z) /\
  simple_transpose_Cartan (tF, 4) = Ok (mk_mat 4 4 [2; -1; 0; 0;  -1; 2; -1; 0;  0; -2; 2; -1;  0; 0; -1; 2]%Z).
Proof. split; [repeat constructor; cbn; lia|]. split; vm_compute; reflexivity. Qed.
(** checkRank accepts the ranks up to 32 for which the letter names a simple type *)
Theorem C88_check_rank (X : letter) (l : nat) : check_rank X l = true <-> valid_rank X l /\ l <= 32.
Proof.
  unfold check_rank. destruct (Nat.ltb_spec 32 l); [split; [discriminate|lia]|]. destruct X; cbn [valid_rank]; rewrite ?andb_true_iff, ?Nat.leb_le, ?Nat.eqb_eq; lia.
Qed.
Example C88_check_rank_ex : map (check_rank tD) [3; 4; 32; 33] = [false; true; true; false] /\ valid_rank tD 4.
Proof. split; [reflexivity|cbn; lia]. Qed.
(** dual types have the transposed matrix *)
Theorem C88_dual_type (lt : lietype) : valid_type lt ->
  valid_type (dual_type lt) /\ total (dual_type lt) = total lt /\ dual_type (dual_type lt) = lt /\
  forall i j, block_diagonal (dual_type lt) i j = block_diagonal lt j i.
Proof.
  intros V. destruct (dual_valid lt V) as [A B]. split; [exact A|]. split; [exact B|]. split; [apply dual_dual|]. apply block_dual, V.
Qed.
Example C88_dual_type_ex :
  valid_type [(tB, 4); (tF, 4)] /\ dual_type [(tB, 4); (tF, 4)] = [(tC, 4); (tf, 4)] /\
  block_diagonal [(tB, 4); (tF, 4)] 2 3 = (-2)%Z /\ block_diagonal (dual_type [(tB, 4); (tF, 4)]) 3 2 = (-2)%Z.
Proof. split; [repeat constructor; cbn; lia|]. vm_compute. auto. Qed.

(** * C89: determinants *)
(** the determinant of the Cartan matrix without torus factors, modulo 2^32 *)
Theorem C89_determinant (lt : lietype) : valid_type lt ->
  lt_det lt = (det (total (derived lt)) (block_diagonal (derived lt)) mod 2 ^ 32)%Z.
Proof. apply lt_det_ok. Qed.
(** the exact determinant when the semisimple rank is at most 31 *)
Theorem C89_determinant_exact (lt : lietype) : valid_type lt -> total (derived lt) <= 31 ->
  lt_det lt = det (total (derived lt)) (block_diagonal (derived lt)).
Proof. apply lt_det_exact. Qed.
Example C89_determinant_ex :
  valid_type [(tA, 5); (tT, 2); (tD, 7); (tE, 7)] /\ total (derived [(tA, 5); (tT, 2); (tD, 7); (tE, 7)]) = 19 /\
  lt_det [(tA, 5); (tT, 2); (tD, 7); (tE, 7)] = 48%Z.
Proof. split; [repeat constructor; cbn; lia|]. vm_compute. auto. Qed.
Theorem C89_simple_determinant (X : letter) (r : nat) : X <> tT -> valid_rank X r -> (Z.of_nat r < 2 ^ 32 - 1)%Z ->
  simple_det (X, r) = det r (std X r).
Proof. intros NT V B. rewrite det_std by assumption. apply simple_det_ok; assumption. Qed.
Example C89_simple_determinant_ex : simple_det (tA, 20) = 21%Z /\ valid_rank tA 20 /\ simple_det (tE, 6) = 3%Z.
Proof. vm_compute. repeat split; lia. Qed.
(** for 32 factors A1, which has the largest rank allowed, the product is 0 *)
Theorem C89_determinant_refuted : exists lt, valid_type lt /\ semisimple lt /\ total lt = 32 /\
  lt_det lt = 0%Z /\ det (total lt) (block_diagonal lt) = (2 ^ 32)%Z.
Proof.
  exists (repeat (tA, 1) 32). assert (V : valid_type (repeat (tA, 1) 32)) by (repeat constructor).
  assert (SS : semisimple (repeat (tA, 1) 32)) by (repeat constructor; discriminate).
  split; [exact V|]. split; [exact SS|]. split; [reflexivity|]. split; [vm_compute; reflexivity|].
  rewrite (block_det _ V SS). vm_compute. reflexivity.
Qed.
(** for a torus factor the value is 1, and the determinant of its (zero) Cartan matrix is 0 *)
Theorem C89_torus_refuted : exists s, valid_rank (fst s) (snd s) /\ simple_det s = 1%Z /\ det (snd s) (simple_matrix s) = 0%Z.
Proof. exists (tT, 1). vm_compute. auto. Qed.

(** * C90: involutions of inner classes *)
(** the matrix permutes the nodes, in the numbering of the layout, as said by the letters *)
Theorem C90_involution (lo : layout) : let n := total (l_type lo) in
  valid_type (l_type lo) -> valid_inner (l_inner lo) (l_type lo) -> permutes n (l_perm lo) ->
  gives (involution lo) (fun M => exists g, is_mx M n n g /\ forall a b, a < n -> b < n ->
    g (nth a (l_perm lo) 0) (nth b (l_perm lo) 0) =
    let '(j, e) := inner_map (l_inner lo) (l_type lo) b in if a =? j then e else 0%Z) never.
Proof.
  intros n V VI P. eapply gives_mono; [apply (involution_ok lo V VI P)|]. intros M (g & H1 & H2). exists g. split; [exact H1|].
  intros a b Ha Hb. rewrite H2 by assumption. destruct (inner_map _ _ b). reflexivity.
Qed.
(** the matrix is an involution, and it preserves the Cartan matrix with this numbering *)
Theorem C90_involution_laws (lo : layout) (f : nat -> nat -> Z) : let n := total (l_type lo) in
  valid_type (l_type lo) -> valid_inner (l_inner lo) (l_type lo) -> straightens n f (l_type lo) (l_perm lo) ->
  gives (involution lo) (fun M => exists g, is_mx M n n g /\ feq n n (fmul n g g) delta /\
    feq n n (fmul n (fun i j => g j i) (fmul n f g)) f) never.
Proof.
  intros n V VI (_ & P & F). eapply gives_mono; [apply (involution_ok lo V VI P)|]. intros M (g & H1 & H2). exists g. split; [exact H1|].
  fold n in H1, H2.
  assert (MI : forall b, b < n -> fst (inner_map (l_inner lo) (l_type lo) b) < n /\
    inner_map (l_inner lo) (l_type lo) (fst (inner_map (l_inner lo) (l_type lo) b)) = (b, snd (inner_map (l_inner lo) (l_type lo) b)) /\
    (snd (inner_map (l_inner lo) (l_type lo) b) = 1%Z \/ snd (inner_map (l_inner lo) (l_type lo) b) = (-1)%Z)).
  { intros b Hb. apply inner_inv; assumption. }
  split; [apply (signed_square n (l_perm lo) g _ P H2 MI)|].
  apply (signed_auto n (l_perm lo) g _ P H2 MI f (block_diagonal (l_type lo)) F).
  - intros a b Ha Hb. apply inner_auto; assumption.
  - intros a b Ha Hb S. assert (Z0 : forall a, a < n -> snd (inner_map (l_inner lo) (l_type lo) a) = (-1)%Z -> forall b, block_diagonal (l_type lo) a b = 0%Z /\ block_diagonal (l_type lo) b a = 0%Z).
    { intros c Hc Sc d. apply torus_row; [exact V|exact Hc|]. apply (inner_sign (l_inner lo)); assumption. }
    destruct S as [S|S]; [apply (Z0 a Ha S)|apply (Z0 b Hb S)].
Qed.
Example C90_involution_ex :
  let lo := mk_layout [(tA, 3); (tT, 1)] [is; is] [2; 0; 1; 3] in
  valid_type (l_type lo) /\ valid_inner (l_inner lo) (l_type lo) /\ permutes 4 (l_perm lo) /\
  involution lo = Ok (mk_mat 4 4 [1; 0; 0; 0;  0; 0; 1; 0;  0; 1; 0; 0;  0; 0; 0; -1]%Z).
Proof.
  split; [repeat constructor; cbn; lia|]. split; [cbn; auto|]. split; [|vm_compute; reflexivity].
  apply (Permutation_trans (l' := [0; 2; 1; 3])); [constructor|]. cbn. constructor. constructor.
Qed.
(** involutions of simple types *)
Theorem C90_simple_involution (s : simple) (tp : simple_ict) : (tp = unequal_rank -> unequal_exists s) ->
  let n := match tp with complex => 2 * snd s | _ => snd s end in
  gives (simple_involution s tp) (fun M => is_mx M n n (fun a b =>
    let '(j, e) := match tp with
                   | equal_rank => inner_map [ic] [s] b
                   | unequal_rank => inner_map [match fst s with tD => iu | _ => is end] [s] b
                   | complex => inner_map [iC] [s; s] b
                   end in
    if a =? j then e else 0%Z)) never.
Proof.
  intros U n. eapply gives_mono; [apply (simple_involution_ok s tp U)|]. fold n. intros M H. eapply is_mx_ext; [exact H|].
  intros a b Ha Hb. unfold signed. destruct s as [X r]. cbn [fst snd] in *. subst n.
  destruct tp; unfold involution_map; rewrite inner_map_cons by (destruct X; discriminate); cbn [fst snd head_size].
  - rewrite (proj2 (Nat.ltb_lt b r)) by lia. reflexivity.
  - replace (head_size (match X with tD => iu | _ => is end) r) with r by (destruct X; reflexivity). rewrite (proj2 (Nat.ltb_lt b r)) by lia.
    destruct (head_map _ X r b). reflexivity.
  - rewrite (proj2 (Nat.ltb_lt b (r + r))) by lia. destruct (head_map _ X r b). reflexivity.
Qed.
Example C90_simple_involution_ex :
  unequal_exists (tA, 3) /\ simple_involution (tA, 3) unequal_rank = Ok (mk_mat 3 3 [0; 0; 1;  0; 1; 0;  1; 0; 0]%Z) /\
  simple_involution (tA, 1) complex = Ok (mk_mat 2 2 [0; 1; 1; 0]%Z).
Proof. split; [cbn; lia|]. split; vm_compute; reflexivity. Qed.
(** the dual inner class, without complex letters: the map followed by minus the longest element *)
Theorem C90_dual_letters (ict : list icl) (lt : lietype) : valid_inner ict lt -> valid_type lt ->
  exists ict', dual_ict ict lt = Ok ict' /\ valid_inner ict' lt /\ length ict' = length ict /\
  (~ In iC ict -> forall i, i < total lt -> inner_map ict' lt i =
    let '(j, e) := inner_map ict lt i in let '(k, e') := inner_map (map (fun _ => is) lt) lt j in (k, (e * e')%Z)).
Proof.
  intros VI V. destruct (dual_ict_ok ict lt VI V) as (ict' & E & A & B & C). exists ict'. split; [exact E|]. split; [exact A|]. split; [exact B|].
  intros NI i Hi. rewrite (C NI i Hi). unfold after, split_of. destruct (inner_map ict lt i) as [j e]. cbn [fst snd]. destruct (inner_map _ lt j) as [k e']. reflexivity.
Qed.
Example C90_dual_letters_ex : valid_inner [ic; is; iu] [(tD, 5); (tA, 2); (tD, 4)] /\
  dual_ict [ic; is; iu] [(tD, 5); (tA, 2); (tD, 4)] = Ok [is; ic; iu].
Proof. split; [cbn; auto|vm_compute; reflexivity]. Qed.
(** the dual layout describes the transposed Cartan matrix and the dual inner class *)
Theorem C90_dual_layout (n : nat) (f : nat -> nat -> Z) (lo : layout) : valid_type (l_type lo) ->
  Forall (fun s => fst s <> tf /\ fst s <> tg) (l_type lo) -> valid_inner (l_inner lo) (l_type lo) -> straightens n f (l_type lo) (l_perm lo) ->
  gives (dual_layout lo) (fun lo' => valid_type (l_type lo') /\ valid_inner (l_inner lo') (l_type lo') /\
    straightens n (fun i j => f j i) (l_type lo') (l_perm lo') /\
    (~ In iC (l_inner lo) -> forall i, i < n -> inner_map (l_inner lo') (l_type lo') i =
      let '(j, e) := inner_map (l_inner lo) (l_type lo) i in
      let '(k, e') := inner_map (map (fun _ => is) (l_type lo)) (l_type lo) j in (k, (e * e')%Z))) never.
Proof.
  intros V PL VI St. eapply gives_mono; [apply (dual_layout_ok n f lo V PL VI St)|]. intros lo' (A & _ & B & C & D). split; [exact A|]. split; [exact B|]. split; [exact C|].
  intros NI i Hi. rewrite (D NI i Hi). unfold after, split_of. destruct (inner_map (l_inner lo) (l_type lo) i) as [j e]. cbn [fst snd]. destruct (inner_map _ (l_type lo) j) as [k e']. reflexivity.
Qed.
Example C90_dual_layout_ex :
  let lo := mk_layout [(tC, 3); (tG, 2)] [is; ic] [0; 1; 2; 3; 4] in
  valid_type (l_type lo) /\ straightens 5 (block_diagonal (l_type lo)) (l_type lo) (l_perm lo) /\
  dual_layout lo = Ok (mk_layout [(tB, 3); (tG, 2)] [is; ic] [0; 1; 2; 4; 3]).
Proof.
  split; [repeat constructor; cbn; lia|]. split; [|vm_compute; reflexivity]. split; [reflexivity|]. split; [apply Permutation_refl|].
  intros i j Hi Hj. do 5 (destruct i as [|i]; [do 5 (destruct j as [|j]; [reflexivity|]); lia|]). lia.
Qed.
(** for the letters f and g the dual layout keeps type and numbering *)
Theorem C90_dual_layout_refuted : exists f lo lo', valid_type (l_type lo) /\ valid_inner (l_inner lo) (l_type lo) /\
  straightens 2 f (l_type lo) (l_perm lo) /\ dual_layout lo = Ok lo' /\ ~ straightens 2 (fun i j => f j i) (l_type lo') (l_perm lo').
Proof.
  exists (block_diagonal [(tg, 2)]), (mk_layout [(tg, 2)] [ic] [0; 1]), (mk_layout [(tg, 2)] [ic] [0; 1]).
  split; [repeat constructor; cbn; lia|]. split; [cbn; auto|]. split.
  - split; [reflexivity|]. split; [apply Permutation_refl|]. intros i j Hi Hj. do 2 (destruct i as [|i]; [do 2 (destruct j as [|j]; [reflexivity|]); lia|]). lia.
  - split; [vm_compute; reflexivity|]. intros (_ & _ & H). specialize (H 0 1 ltac:(lia) ltac:(lia)). vm_compute in H. discriminate.
Qed.

Print Assumptions C88_entry.
Print Assumptions C88_simple_entry.
Print Assumptions C88_simple_matrix.
Print Assumptions C88_matrix.
Print Assumptions C88_check_rank.
Print Assumptions C88_dual_type.
Print Assumptions C89_determinant.
Print Assumptions C89_determinant_exact.
Print Assumptions C89_simple_determinant.
Print Assumptions C89_determinant_refuted.
Print Assumptions C89_torus_refuted.
Print Assumptions C90_involution.
Print Assumptions C90_involution_laws.
Print Assumptions C90_simple_involution.
Print Assumptions C90_dual_letters.
Print Assumptions C90_dual_layout.
Print Assumptions C90_dual_layout_refuted.
