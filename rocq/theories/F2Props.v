(** Properties C62-C66: linear algebra over the field with two elements (bitvector.h, bitvector.cpp) *)

From Coq Require Import List Arith NArith ZArith Lia Bool.
From Verif Require Import VecModel RunModel RunProofs F2Model F2Spec F2Basics F2Proofs F2Solve F2Kernel F2Section F2Ops.
Import ListNotations.
Open Scope nat_scope.

(** *** C62: vectors and matrices *)

Theorem C62_add v w i : coord (data (bv_add v w)) i = xorb (coord (data v) i) (coord (data w) i) /\ bsize (bv_add v w) = bsize v.
Proof. split; [apply coord_lxor|auto]. Qed.
Print Assumptions C62_add.
Theorem C62_and v w i : coord (data (bv_and v w)) i = coord (data v) i && coord (data w) i /\ bsize (bv_and v w) = bsize v.
Proof. split; [apply coord_land|auto]. Qed.
Print Assumptions C62_and.
Theorem C62_isZero n v : within n (data v) -> isZero v = true <-> forall i, i < n -> coord (data v) i = false.
Proof.
  intros W. rewrite isZero_spec. split; [intros -> i _; apply coord_0|]. intros H. apply (within_ext n); [auto|apply within_0|].
  intros i Hi. rewrite coord_0. auto.
Qed.
Print Assumptions C62_isZero.
Theorem C62_unit dim n j : j < dim -> gives (bv_unit dim n j) (fun v => bsize v = n /\ forall i, coord (data v) i = (i =? j)) sure.
Proof. exact (bv_unit_ok dim n j). Qed.
Print Assumptions C62_unit.
Theorem C62_set dim v i b : i < dim ->
  gives (bv_set dim v i b) (fun w => bsize w = bsize v /\ forall j, coord (data w) j = if j =? i then b else coord (data v) j) sure.
Proof. exact (bv_set_ok dim v i b). Qed.
Print Assumptions C62_set.
Theorem C62_flip dim v i : i < dim ->
  gives (bv_flip dim v i) (fun w => bsize w = bsize v /\ forall j, coord (data w) j = xorb (j =? i) (coord (data v) j)) sure.
Proof. exact (bv_flip_ok dim v i). Qed.
Print Assumptions C62_flip.
Theorem C62_dot dim n v w : n <= dim -> within n (data v) -> dot dim v w = scalar n (data v) (data w).
Proof. exact (dot_ok dim n v w). Qed.
Print Assumptions C62_dot.
Theorem C62_pushBack dim n v b : n < dim -> sized n v ->
  gives (pushBack dim v b) (fun w => sized (S n) w /\ coord (data w) n = b /\ forall i, i < n -> coord (data w) i = coord (data v) i) sure.
Proof. exact (pushBack_ok dim n v b). Qed.
Print Assumptions C62_pushBack.
(** changing the size leaves the bits alone, also those beyond the new size *)
Theorem C62_resize v n : data (bv_resize v n) = data v /\ bsize (bv_resize v n) = n.
Proof. split; auto. Qed.
Print Assumptions C62_resize.
Theorem C62_mod2 dim v : length v <= dim ->
  gives (bv_mod2 dim v) (fun w => sized (length v) w /\ forall i, i < length v -> coord (data w) i = Z.odd (nth i v 0%Z)) sure.
Proof. exact (bv_mod2_ok dim v). Qed.
Print Assumptions C62_mod2.
Theorem C62_ints dim v : bsize v <= dim ->
  gives (bv_ints dim v) (fun r => r = map (fun i => if coord (data v) i then 1 else 0)%Z (seq 0 (bsize v))) sure.
Proof. exact (bv_ints_ok dim v). Qed.
Print Assumptions C62_ints.
Theorem C62_lift dim v : bsize v <= dim -> within (bsize v) (data v) ->
  gives (lift dim v) (fun r => r = map (fun i => if coord (data v) i then 1 else 0)%Z (seq 0 (bsize v))) sure.
Proof. exact (lift_ok dim v). Qed.
Print Assumptions C62_lift.
Theorem C62_slice dim v t : bsize v <= dim ->
  gives (bv_slice dim v t) (fun w => sized (length (positions_of (bsize v) t)) w /\
    forall k p, nth_error (positions_of (bsize v) t) k = Some p -> coord (data w) k = coord (data v) p) sure.
Proof. exact (bv_slice_ok dim v t). Qed.
Print Assumptions C62_slice.
Theorem C62_unslice dim v t n : n <= dim -> within n t ->
  gives (bv_unslice dim v t n) (fun w => sized n w /\
    (forall k p, nth_error (positions_of n t) k = Some p -> coord (data w) p = coord (data v) k) /\
    forall p, coord t p = false -> coord (data w) p = false) sure.
Proof. exact (bv_unslice_ok dim v t n). Qed.
Print Assumptions C62_unslice.
(** 13 = (1,0,1,1), sliced by {0,2,3,5} in size 6, and back *)
Example C62_vectors_ex : bv_mod2 32 [3; -2; -5; 7]%Z = Ok (mk_bv 13 4) /\ bv_ints 32 (mk_bv 13 4) = Ok [1; 0; 1; 1]%Z /\
  lift 32 (mk_bv 13 4) = Ok [1; 0; 1; 1]%Z /\ dot 32 (mk_bv 13 4) (mk_bv 5 4) = false /\ pushBack 32 (mk_bv 13 4) true = Ok (mk_bv 29 5) /\
  bv_slice 32 (mk_bv 37 6) 45 = Ok (mk_bv 11 4) /\ bv_unslice 32 (mk_bv 11 4) 45 6 = Ok (mk_bv 37 6) /\
  isZero (bv_resize (mk_bv 8 4) 3) = false.
Proof. vm_compute. repeat split. Qed.
Theorem C62_combination dim b n e : length b <= dim -> combination dim b n e = Ok (mk_bv (lincomb (coord e) (map data b)) n).
Proof. exact (combination_ok dim b n e). Qed.
Print Assumptions C62_combination.
Theorem C62_set_combination dim b e : length b <= dim -> set_combination dim b e = Ok (lincomb (coord e) b).
Proof. exact (set_combination_ok dim b e). Qed.
Print Assumptions C62_set_combination.

Theorem C62_matrix_mod2 dim m n e : m <= dim -> gives (bm_mod2 dim m n e) (fun M => rows M = m /\ is_matrix m n (cols M) /\
    forall i j, i < m -> j < n -> entry (cols M) i j = Z.odd (e i j)) sure.
Proof. exact (bm_mod2_ok dim m n e). Qed.
Print Assumptions C62_matrix_mod2.
Theorem C62_identity dim n : n <= dim -> gives (bm_identity dim n) (fun M => rows M = n /\ is_identity n (cols M)) sure.
Proof. exact (bm_identity_ok dim n). Qed.
Print Assumptions C62_identity.
Theorem C62_initBasis dim n : n <= dim -> gives (initBasis dim n) (fun b => Forall (sized n) b /\ is_identity n (map data b)) sure.
Proof. exact (initBasis_ok dim n). Qed.
Print Assumptions C62_initBasis.
Theorem C62_entry dim M i j : i < dim -> j < ncols M -> bm_test dim M i j = Ok (entry (cols M) i j).
Proof. exact (bm_test_ok dim M i j). Qed.
Print Assumptions C62_entry.
Theorem C62_set_entry dim M i j b : i < dim -> j < ncols M ->
  gives (bm_set dim M i j b) (fun K => rows K = rows M /\ ncols K = ncols M /\
    forall k l, entry (cols K) k l = if (k =? i) && (l =? j) then b else entry (cols M) k l) sure.
Proof. exact (bm_set_ok dim M i j b). Qed.
Print Assumptions C62_set_entry.
Theorem C62_row dim M i : ncols M <= dim -> i < dim ->
  gives (bm_row dim M i) (fun v => sized (ncols M) v /\ forall j, j < ncols M -> coord (data v) j = entry (cols M) i j) sure.
Proof. exact (bm_row_ok dim M i). Qed.
Print Assumptions C62_row.
Theorem C62_apply dim M v : ncols M <= dim -> bm_apply dim M v = Ok (mk_bv (image_of (cols M) (data v)) (rows M)) /\
  forall i, coord (image_of (cols M) (data v)) i = sum2 (ncols M) (fun k => entry (cols M) i k && coord (data v) k).
Proof. intros H. split; [exact (bm_apply_ok dim M v H)|]. intros i. apply image_coord. Qed.
Print Assumptions C62_apply.
Theorem C62_right_act dim M v : rows M <= dim -> ncols M <= dim -> within (rows M) (data v) ->
  gives (bm_right_act dim M v) (fun w => sized (ncols M) w /\
    forall j, j < ncols M -> coord (data w) j = sum2 (rows M) (fun i => coord (data v) i && entry (cols M) i j)) sure.
Proof. exact (bm_right_act_ok dim M v). Qed.
Print Assumptions C62_right_act.
Theorem C62_matrix_add M K : ncols K = ncols M -> gives (bm_add M K) (fun S => rows S = rows M /\ ncols S = ncols M /\
    forall i j, entry (cols S) i j = xorb (entry (cols M) i j) (entry (cols K) i j)) sure.
Proof. exact (bm_add_ok M K). Qed.
Print Assumptions C62_matrix_add.
Theorem C62_matrix_mul dim M K : ncols M <= dim -> gives (bm_mul dim M K) (fun P => rows P = rows M /\ is_product (cols M) (cols K) (cols P)) sure.
Proof. exact (bm_mul_ok dim M K). Qed.
Print Assumptions C62_matrix_mul.
Theorem C62_transpose dim M : rows M <= dim -> ncols M <= dim ->
  gives (bm_transpose dim M) (fun T => rows T = ncols M /\ is_matrix (ncols M) (rows M) (cols T) /\
    forall i j, i < ncols M -> j < rows M -> entry (cols T) i j = entry (cols M) j i) sure.
Proof. exact (bm_transpose_ok dim M). Qed.
Print Assumptions C62_transpose.
Theorem C62_addToColumn M j v : j < ncols M -> gives (bm_addToColumn M j v) (fun K => rows K = rows M /\ ncols K = ncols M /\
   forall i l, entry (cols K) i l = xorb (entry (cols M) i l) ((l =? j) && coord (data v) i)) sure.
Proof. exact (bm_addToColumn_ok M j v). Qed.
Print Assumptions C62_addToColumn.
Theorem C62_addColumn M c : rows (bm_addColumn M c) = rows M /\ ncols (bm_addColumn M c) = S (ncols M) /\
  forall i j, entry (cols (bm_addColumn M c)) i j = if j =? ncols M then coord c i else entry (cols M) i j.
Proof.
  split; [auto|]. split; [unfold ncols, bm_addColumn; cbn [cols]; rewrite app_length; cbn; lia|]. intros i j. apply bm_addColumn_ok.
Qed.
Print Assumptions C62_addColumn.
Theorem C62_matrix_resize M m n : rows (bm_resize M m n) = m /\ ncols (bm_resize M m n) = n /\
  forall i j, entry (cols (bm_resize M m n)) i j = (j <? n) && entry (cols M) i j.
Proof. exact (bm_resize_ok M m n). Qed.
Print Assumptions C62_matrix_resize.
(** a 2 by 3 matrix, its transpose and products *)
Example C62_matrices_ex :
  bm_mod2 32 2 3 (fun i j => Z.of_nat (i + 2) * Z.of_nat (j + 1))%Z = Ok (mk_bm [2; 0; 2]%N 2) /\
  bm_transpose 32 (mk_bm [1; 3; 2]%N 2) = Ok (mk_bm [3; 6]%N 3) /\
  bm_mul 32 (mk_bm [1; 3; 2]%N 2) (mk_bm [3; 6]%N 3) = Ok (mk_bm [2; 1]%N 2) /\
  bm_apply 32 (mk_bm [1; 3; 2]%N 2) (mk_bv 6 3) = Ok (mk_bv 1 2) /\
  bm_right_act 32 (mk_bm [1; 3; 2]%N 2) (mk_bv 3 2) = Ok (mk_bv 5 3) /\
  bm_row 32 (mk_bm [1; 3; 2]%N 2) 1 = Ok (mk_bv 6 3) /\ bm_identity 32 3 = Ok (mk_bm [1; 2; 4]%N 3).
Proof. vm_compute. repeat split. Qed.

(** *** C63: Gauss_Jordan *)

Theorem C63_Gauss_Jordan dim n b : n <= dim -> Forall (sized n) b ->
  gives (Gauss_Jordan dim b) (fun '(t, r) => within n t /\ Forall (sized n) r /\
    reduced_echelon (map data r) (positions_of n t) /\
    forall u, in_span (map data r) u <-> in_span (map data b) u) sure.
Proof. exact (Gauss_Jordan_ok dim n b). Qed.
Print Assumptions C63_Gauss_Jordan.
Example C63_Gauss_Jordan_ex : Gauss_Jordan 32 [mk_bv 6 4; mk_bv 12 4; mk_bv 10 4; mk_bv 7 4] = Ok (7%N, [mk_bv 1 4; mk_bv 10 4; mk_bv 12 4]).
Proof. vm_compute. reflexivity. Qed.
(** the result is determined by the space spanned *)
Theorem C63_canonical dim n b c tb rb tc rc : n <= dim -> Forall (sized n) b -> Forall (sized n) c ->
  Gauss_Jordan dim b = Ok (tb, rb) -> Gauss_Jordan dim c = Ok (tc, rc) ->
  (forall u, in_span (map data b) u <-> in_span (map data c) u) -> tb = tc /\ rb = rc.
Proof.
  intros Hn SB SC EB EC H. pose proof (Gauss_Jordan_ok dim n b Hn SB) as GB. pose proof (Gauss_Jordan_ok dim n c Hn SC) as GC.
  rewrite EB in GB. rewrite EC in GC. destruct GB as (W1 & S1 & R1 & P1), GC as (W2 & S2 & R2 & P2).
  destruct (echelon_unique _ _ _ _ R1 R2) as [ED EP]; [intros v; rewrite P1, P2; auto|]. split.
  - apply (within_ext n); auto. intros i Hi.
    assert (X : forall t, In i (positions_of n t) <-> i < n /\ coord t i = true) by (intros t; apply (in_positions n)).
    pose proof (X tb) as X1. pose proof (X tc) as X2. rewrite EP in X1. apply eq_true_iff_eq. tauto.
  - clear -S1 S2 ED. revert rc S2 ED. induction rb as [|x l IH]; intros [|y m] S2 E; try discriminate; [auto|].
    inversion S1 as [|? ? [A B] S1']; inversion S2 as [|? ? [C D0] S2']; subst. cbn in E. injection E as E1 E2. f_equal; [|now apply IH].
    destruct x, y; cbn in *; congruence.
Qed.
Print Assumptions C63_canonical.
Example C63_canonical_ex : Gauss_Jordan 32 [mk_bv 3 2; mk_bv 1 2] = Ok (3%N, [mk_bv 1 2; mk_bv 2 2]) /\
  Gauss_Jordan 32 [mk_bv 2 2; mk_bv 3 2; mk_bv 1 2] = Ok (3%N, [mk_bv 1 2; mk_bv 2 2]).
Proof. vm_compute. auto. Qed.

(** *** C64: systems of equations *)

(** [combination_exists]: coefficients of a combination, or the fact that there is none *)
Theorem C64_combination_exists dim n b rhs : n <= dim -> length b <= dim -> Forall (sized n) b -> sized n rhs ->
  gives (combination_exists dim b rhs) (fun o =>
    match o with
    | Some c => within (length b) c /\ lincomb (coord c) (map data b) = data rhs
    | None => ~ in_span (map data b) (data rhs)
    end) sure.
Proof. exact (combination_exists_ok dim n b rhs). Qed.
Print Assumptions C64_combination_exists.
Example C64_combination_exists_ex :
  combination_exists 32 [mk_bv 3 3; mk_bv 5 3; mk_bv 6 3] (mk_bv 6 3) = Ok (Some 3%N) /\
  combination_exists 32 [mk_bv 3 3; mk_bv 5 3; mk_bv 6 3] (mk_bv 4 3) = Ok None.
Proof. vm_compute. auto. Qed.
(** [solvable]: a solution, or the fact that there is none *)
Theorem C64_solvable dimeq dimsol n eqns sol : S n <= dimeq -> n <= dimsol -> eqns <> [] -> Forall (sized (S n)) eqns ->
  gives (solvable dimeq dimsol eqns sol) (fun o =>
    match o with
    | Some x => sized n x /\ forall e, In e eqns -> solves n (data x) (data e)
    | None => ~ exists x, forall e, In e eqns -> solves n x (data e)
    end) sure.
Proof. exact (solvable_ok dimeq dimsol n eqns sol). Qed.
Print Assumptions C64_solvable.
(** no equations: the given vector is left as it is *)
Theorem C64_solvable_none dimeq dimsol sol : solvable dimeq dimsol [] sol = Ok (Some sol).
Proof. reflexivity. Qed.
Print Assumptions C64_solvable_none.
(** x0+x1=1, x1+x2=1, and then also x0+x2=1 *)
Example C64_solvable_ex :
  solvable 33 32 [mk_bv 11 4; mk_bv 14 4] (mk_bv 0 0) = Ok (Some (mk_bv 2 3)) /\
  solvable 33 32 [mk_bv 11 4; mk_bv 14 4; mk_bv 13 4] (mk_bv 0 0) = Ok None.
Proof. vm_compute. auto. Qed.
Theorem C64_make_equation dimeq n lhs rhs : n < dimeq -> sized n lhs ->
  gives (make_equation dimeq lhs rhs) (fun e => sized (S n) e /\ forall x, solves n x (data e) <-> scalar n (data lhs) x = rhs) sure.
Proof.
  intros H SL. unfold make_equation. destruct lhs as [d s]. eapply gives_mono; [now apply (pushBack_ok dimeq n)|].
  intros e (SE & CN & CE). split; [auto|]. intros x. unfold solves, scalar. rewrite CN.
  rewrite (sum2_ext n (fun i => coord (data e) i && coord x i) (fun i => coord d i && coord x i)); [reflexivity|].
  intros i Hi. now rewrite CE.
Qed.
Print Assumptions C64_make_equation.
Example C64_make_equation_ex : make_equation 33 (mk_bv 3 3) true = Ok (mk_bv 11 4).
Proof. reflexivity. Qed.

(** *** C65: kernel and image *)

Theorem C65_kernel dim M : rows M <= dim -> ncols M <= dim -> is_matrix (rows M) (ncols M) (cols M) ->
  gives (bm_kernel dim M) (fun b => Forall (sized (ncols M)) b /\ basis_of (in_kernel (ncols M) (cols M)) (map data b)) sure.
Proof. exact (bm_kernel_ok dim M). Qed.
Print Assumptions C65_kernel.
Theorem C65_image dim M : rows M <= dim -> is_matrix (rows M) (ncols M) (cols M) ->
  gives (bm_image dim M) (fun b => Forall (sized (rows M)) b /\ basis_of (in_span (cols M)) (map data b)) sure.
Proof. intros H I. exact (bm_image_ok dim (rows M) M H eq_refl I). Qed.
Print Assumptions C65_image.
Example C65_ex : is_matrix 3 4 [3; 5; 6; 7]%N /\ bm_kernel 32 (mk_bm [3; 5; 6; 7]%N 3) = Ok [mk_bv 7 4] /\
  bm_image 32 (mk_bm [3; 5; 6; 7]%N 3) = Ok [mk_bv 3 3; mk_bv 6 3; mk_bv 4 3].
Proof.
  split; [|vm_compute; auto]. split; [reflexivity|]. intros c I i Hi.
  assert (c < 2 ^ 3)%N as L by (cbn in I; intuition; subst; reflexivity).
  unfold coord. destruct (N.eq_dec c 0) as [->|NZ]; [apply N.bits_0|]. apply N.bits_above_log2.
  apply N.log2_lt_pow2; [lia|]. eapply N.lt_le_trans; [exact L|]. apply N.pow_le_mono_r; lia.
Qed.

(** *** C66: section *)

(** the result B satisfies A B x = x for x in the image of A, that is A B A = A *)
Theorem C66_section dim M : rows M <= dim -> ncols M <= dim -> is_matrix (rows M) (ncols M) (cols M) ->
  gives (bm_section dim M) (fun B => rows B = ncols M /\ is_matrix (ncols M) (rows M) (cols B) /\
    forall x, in_span (cols M) x -> image_of (cols M) (image_of (cols B) x) = x) sure.
Proof. exact (bm_section_ok dim M). Qed.
Print Assumptions C66_section.
(** it is a left inverse when the columns are independent *)
Theorem C66_left_inverse dim M : rows M <= dim -> ncols M <= dim -> is_matrix (rows M) (ncols M) (cols M) -> independent (cols M) ->
  gives (bm_section dim M) (fun B => forall x, within (ncols M) x -> image_of (cols B) (image_of (cols M) x) = x) sure.
Proof.
  intros H1 H2 IM I. eapply gives_mono; [exact (bm_section_ok dim M H1 H2 IM)|]. intros B (R & IB & H).
  exact (left_inverse (rows M) (ncols M) (cols M) (cols B) IM IB I H).
Qed.
Print Assumptions C66_left_inverse.
(** and a right inverse when they span the whole space *)
Theorem C66_right_inverse dim M : rows M <= dim -> ncols M <= dim -> is_matrix (rows M) (ncols M) (cols M) ->
  (forall x, within (rows M) x -> in_span (cols M) x) ->
  gives (bm_section dim M) (fun B => forall x, within (rows M) x -> image_of (cols M) (image_of (cols B) x) = x) sure.
Proof.
  intros H1 H2 IM S. eapply gives_mono; [exact (bm_section_ok dim M H1 H2 IM)|]. intros B (R & IB & H) x W. apply H. auto.
Qed.
Print Assumptions C66_right_inverse.
Example C66_ex : bm_section 32 (mk_bm [3; 6; 4]%N 3) = Ok (mk_bm [7; 6; 4]%N 3) /\
  bm_mul 32 (mk_bm [3; 6; 4]%N 3) (mk_bm [7; 6; 4]%N 3) = bm_identity 32 3 /\
  bm_section 32 (mk_bm [3; 3; 6; 5]%N 3) = Ok (mk_bm [5; 4; 0]%N 4).
Proof. vm_compute. auto. Qed.
