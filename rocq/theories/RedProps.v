(** Properties C43 to C49 and C60: reduction of integer matrices.
    A calculation fails with [Overflow] when some value is outside the type of the entries;
    [overflows fits] says this. The theorems hold for any range [fits] of the entries. *)

From Coq Require Import List Arith ZArith Lia Bool.
From Verif Require Import VecModel SetModel SetProofs RunModel RunProofs MatModel MatSpec MatProofs MatProps MatDet RedSpec MatLin RedModel RedGcd RedEchelon RedSolve RedInverse RedDiag RedSystem RedAdapt RedSmith RedClear RedSpan.
Import ListNotations.
Open Scope nat_scope.
Notation idZ := (fun z : Z => z).

(** * C43: gcd of a vector with column operations *)
Theorem C43_gcd fits n x row flip dest : is_vec row n x -> (0 < n -> dest < n) ->
  gives (gcd_ops fits row flip dest) (fun '(d, C, flip') =>
    is_gcd n x d /\ (d = 0%Z -> flip' = flip) /\
    exists c, is_mx C n n c /\ det n c = sgn (xorb flip flip') /\
      forall k, k < n -> frow n x c k = if k =? dest then d else 0%Z) (overflows fits).
Proof.
  intros H Hd. eapply gives_mono; [apply (gcd_ops_ok fits n x row flip dest H Hd)|].
  intros [[d C] flip'] (H1 & H2 & c & H3 & H4 & H5 & _). split; [exact H1|]. split; [exact H2|]. exists c. auto.
Qed.
Print Assumptions C43_gcd.
(* without column operations *)
Theorem C43_gcd_value fits n x row flip dest : is_vec row n x ->
  gives (gcd fits row false flip dest) (fun '(d, _, _) => is_gcd n x d) (overflows fits).
Proof.
  intros H. eapply gives_mono; [apply (gcd_ok fits n x false row flip dest H); discriminate|].
  intros [[d C] flip'] H1. apply H1.
Qed.
Print Assumptions C43_gcd_value.
(* a positive entry at position 0 dividing the others is left there *)
Theorem C43_gcd_divisor fits n x row flip : is_vec row n x -> 0 < n -> (0 < x 0%nat)%Z -> (forall k, k < n -> (x 0%nat | x k)%Z) ->
  gives (gcd_ops fits row flip 0) (fun '(d, C, flip') => d = x 0 /\ flip' = flip /\
    exists c, is_mx C n n c /\ forall i, i < n -> c i 0 = delta i 0) (overflows fits).
Proof.
  intros H Hn P D. eapply gives_mono; [apply (gcd_ops_ok fits n x row flip 0 H); auto|].
  intros [[d C] flip'] (_ & _ & c & H3 & _ & _ & H6). destruct H6 as (H6 & H7 & H8); [split; [exact Hn|split; [exact P|exact D]]|reflexivity|].
  split; [exact H6|]. split; [exact H7|]. exists c. auto.
Qed.
Print Assumptions C43_gcd_divisor.
Example C43_gcd_ex : is_vec [84; -30; 0; 135]%Z 4 (vent [84; -30; 0; 135]%Z) /\
  gcd_ops int32 [84; -30; 0; 135]%Z false 1 = Ok (3, mx 4 [[0; 2; 0; -5]; [-9; -8; 0; 22]; [0; 0; 1; 0]; [-2; -3; 0; 8]], false)%Z /\
  gcd int32 [84; -30; 0; 135]%Z false true 0 = Ok (3%Z, None, false) /\
  gcd_ops int32 [6; -30; 12]%Z false 0 = Ok (6, mx 3 [[1; 5; -2]; [0; 1; 0]; [0; 0; 1]], false)%Z.
Proof. split; [apply is_vec_vent|]. vm_compute. auto. Qed.

(** * C44: column echelon form *)
Theorem C44_column_echelon fits as_int : (forall z, as_int z = z) -> forall M m n f, is_mx M m n f ->
  gives (column_echelon fits as_int M) (fun '(M', col, flip, piv) => exists r g c p,
     r <= n /\ is_mx M' m r g /\ is_mx col n n c /\ unimodular n c /\ det n c = sgn flip /\
     feq m n (fmul n f c) (fun i j => if j <? r then g i j else 0%Z) /\
     echelon m r g p /\ same_span m n f r g /\
     length piv = m /\ bs_elems piv = map p (seq 0 r) /\ bs_size piv = mcols M') (overflows fits).
Proof.
  intros Hint M m n f HM. eapply gives_mono; [apply (column_echelon_ok fits as_int Hint M m n f HM)|].
  intros [[[M' col] flip] piv] (r & g & c & p & H1 & H2 & H3 & H4 & H5 & H6 & H7 & H8). exists r, g, c, p.
  assert (U : unimodular n c) by (apply (sgn_unimodular _ _ _ H4)).
  split; [exact H1|]. split; [exact H2|]. split; [exact H3|]. split; [exact U|]. split; [exact H4|]. split; [exact H5|]. split; [exact H6|].
  split; [apply (span_ok m n f c r g H1 U H5)|]. split; [exact H7|]. split; [exact H8|].
  rewrite size_elems, H8, map_length, seq_length. symmetry. apply (is_mx_cols _ _ _ _ H2).
Qed.
Print Assumptions C44_column_echelon.
Example C44_column_echelon_ex : is_mx (mx 3 [[2; 4; 6]; [0; 3; 5]; [4; 8; 12]]%Z) 3 3 (ent [[2; 4; 6]; [0; 3; 5]; [4; 8; 12]]%Z) /\
  column_echelon int32 idZ (mx 3 [[2; 4; 6]; [0; 3; 5]; [4; 8; 12]]%Z) =
    Ok (mx 2 [[0; 2]; [1; 0]; [0; 4]], mx 3 [[-1; 1; 1]; [2; 0; -5]; [-1; 0; 3]], true, [false; true; true])%Z.
Proof. split; [apply (is_mx_mx 3); reflexivity|]. vm_compute. reflexivity. Qed.
(** For entries of type long long (used in alcoves.cpp:315-319) the gcd is stored in a
    variable of type int (matreduc.h:139): a gcd divisible by 2^32 is taken for 0, and a
    column that is not zero is dropped. *)
Definition to_int (z : Z) : Z := ((z + 2 ^ 31) mod 2 ^ 32 - 2 ^ 31)%Z.
Definition int64 (z : Z) : bool := ((- 2 ^ 63 <=? z) && (z <? 2 ^ 63))%Z.
Theorem C44_column_echelon_long_long_refuted : exists M f M' col flip piv, is_mx M 1 1 f /\ int64 (f 0 0) = true /\
  column_echelon int64 to_int M = Ok (M', col, flip, piv) /\ mcols M' = 0 /\ forall g, ~ same_span 1 1 f 0 g.
Proof.
  exists (mx 1 [[2 ^ 32]]%Z), (ent [[2 ^ 32]]%Z), (mk_mat 1 0 []), (mx 1 [[1]]%Z), false, [false].
  split; [apply (is_mx_mx 1); reflexivity|]. split; [vm_compute; reflexivity|]. split; [lazy; reflexivity|]. split; [reflexivity|].
  intros g H. destruct (proj1 (H (fun _ => (2 ^ 32)%Z))) as [y Hy].
  - exists (fun _ => 1%Z). intros i Hi. replace i with 0 by lia. vm_compute. reflexivity.
  - specialize (Hy 0 ltac:(lia)). vm_compute in Hy. discriminate.
Qed.
Print Assumptions C44_column_echelon_long_long_refuted.

(** * C45, C46: diagonalisation *)
Theorem C45_diagonalise fits m n f M : is_mx M m n f ->
  gives (diagonalise fits M) (fun '(diagonal, row, col) => exists r dd rho gamma,
     is_vec diagonal r dd /\ is_mx row m m rho /\ is_mx col n n gamma /\ unimodular m rho /\ unimodular n gamma /\
     r <= m /\ r <= n /\
     feq m n (fmul n (fmul m rho f) gamma) (fun i j => if (i =? j) && (i <? r) then dd i else 0%Z) /\
     (forall i, i < r -> dd i <> 0%Z) /\ (forall i, 0 < i < r -> (0 < dd i)%Z)) (overflows fits).
Proof.
  intros HM. eapply gives_mono; [apply (diagonalise_ok fits m n f M HM)|].
  intros [[diagonal row] col] (r & dd & rho & gamma & H1 & H2 & H3 & H4 & H5 & H6 & H7 & H8 & H9 & H10 & H11).
  exists r, dd, rho, gamma. assert (unimodular n gamma) by (apply unimodular_det; auto). auto 12.
Qed.
Print Assumptions C45_diagonalise.
Example C45_diagonalise_ex : is_mx (mx 3 [[2; 4; -6]; [0; 3; 5]]%Z) 2 3 (ent [[2; 4; -6]; [0; 3; 5]]%Z) /\
  diagonalise int32 (mx 3 [[2; 4; -6]; [0; 3; 5]]%Z) = Ok ([2; 1], mx 2 [[1; 0]; [0; 1]], mx 3 [[1; -7; 19]; [0; 2; -5]; [0; -1; 3]])%Z.
Proof. split; [apply (is_mx_mx 3); reflexivity|]. vm_compute. reflexivity. Qed.
(** matreduc.h:43-45 and the comment in matreduc.cpp:132-144 promise determinant 1 for [row] and [col]. This
    holds for [col], and for [row] if the rank is at most 1; what is missing for the full
    statement is false, see the next theorem. *)
Theorem C46_determinants_partial fits m n f M : is_mx M m n f ->
  gives (diagonalise fits M) (fun '(diagonal, row, col) => exists rho gamma,
     is_mx row m m rho /\ is_mx col n n gamma /\ det n gamma = 1%Z /\ (length diagonal <= 1 -> det m rho = 1%Z)) (overflows fits).
Proof.
  intros HM. eapply gives_mono; [apply (diagonalise_ok fits m n f M HM)|].
  intros [[diagonal row] col] (r & dd & rho & gamma & [H1 _] & H2 & H3 & H4 & H5 & H6 & _).
  exists rho, gamma. rewrite H1. auto.
Qed.
Print Assumptions C46_determinants_partial.
Example C46_determinants_partial_ex : is_mx (mx 2 [[-2; 0]; [4; 0]]%Z) 2 2 (ent [[-2; 0]; [4; 0]]%Z) /\
  diagonalise int32 (mx 2 [[-2; 0]; [4; 0]]%Z) = Ok ([-2], mx 2 [[1; 0]; [2; 1]], mx 2 [[1; 0]; [0; 1]])%Z.
Proof. split; [apply (is_mx_mx 2); reflexivity|]. vm_compute. reflexivity. Qed.
(** The sign of the first row operation is overwritten at every pivot (matreduc.cpp:172). *)
Theorem C46_row_determinant_refuted : exists M diagonal row col rho, diagonalise int32 M = Ok (diagonal, row, col) /\
  is_mx row 2 2 rho /\ det 2 rho = (-1)%Z.
Proof.
  exists (mx 2 [[-1; 0]; [0; 1]]%Z), [1; 1]%Z, (mx 2 [[-1; 0]; [0; 1]]%Z), (mx 2 [[1; 0]; [0; 1]]%Z), (ent [[-1; 0]; [0; 1]]%Z).
  split; [vm_compute; reflexivity|]. split; [apply (is_mx_mx 2); reflexivity|]. vm_compute. reflexivity.
Qed.
Print Assumptions C46_row_determinant_refuted.

(** * C47: integral linear systems *)
Theorem C47_has_solution fits m n f b0 A b : is_mx A m n f -> is_vec b m b0 ->
  gives (has_solution fits A b) (fun ok => ok = true <-> solvable m n f b0) (overflows fits).
Proof. exact (has_solution_ok fits m n f b0 A b). Qed.
Print Assumptions C47_has_solution.
Theorem C47_find_solution fits m n f b0 A b : is_mx A m n f -> is_vec b m b0 ->
  gives (find_solution fits A b) (fun x => exists y, is_vec x n y /\ solves m n f b0 y)
    (fun er => er = Thrown /\ ~ solvable m n f b0 \/ overflows fits er).
Proof. exact (find_solution_ok fits m n f b0 A b). Qed.
Print Assumptions C47_find_solution.
Example C47_solution_ex : is_mx (mx 3 [[2; 4; 1]; [0; 3; 1]]%Z) 2 3 (ent [[2; 4; 1]; [0; 3; 1]]%Z) /\
  has_solution int32 (mx 2 [[2; 4]; [0; 3]])%Z [2; 3]%Z = Ok true /\ has_solution int32 (mx 2 [[2; 4]; [0; 3]])%Z [2; 4]%Z = Ok false /\
  find_solution int32 (mx 3 [[2; 4; 1]; [0; 3; 1]]%Z) [2; 3]%Z = Ok [0; -1; 6]%Z /\
  find_solution int32 (mx 2 [[2; 4]; [0; 3]])%Z [2; 4]%Z = Fail Thrown.
Proof. split; [apply (is_mx_mx 3); reflexivity|]. vm_compute. auto. Qed.

(** * C48: back substitution and inversion *)
Theorem C48_echelon_solve fits m r e p b0 : echelon m r e p ->
  forall piv M b, is_mx M m r e -> length piv = m -> bs_elems piv = map p (seq 0 r) -> is_vec b m b0 ->
  gives (echelon_solve fits M piv b) (fun '(x, f) => exists xi, is_vec x r xi /\ least_solution m r e b0 xi f)
    (fun er => er = Thrown /\ unsolvable m r e b0 \/ overflows fits er).
Proof. exact (echelon_solve_ok fits m r e p b0). Qed.
Print Assumptions C48_echelon_solve.
Example C48_echelon_solve_ex : echelon 3 2 (ent [[4; 3]; [0; 5]; [0; 4]]%Z) (fun j => if j =? 0 then 0 else 2) /\
  echelon_solve int32 (mx 2 [[4; 3]; [0; 5]; [0; 4]]%Z) [true; false; true] [1; 5; 4]%Z = Ok ([-1; 2], 2)%Z.
Proof.
  split; [|vm_compute; reflexivity]. split.
  - intros [|[|j]] Hj; [| |lia]; cbn; (split; [lia|]); (split; [lia|]); intros [|[|[|i]]] Hi; try lia; reflexivity.
  - intros [|[|j]] [|[|k]] H1 H2; cbn; lia.
Qed.
Theorem C48_inverse fits as_int : (forall z, as_int z = z) -> forall A n f, is_mx A n n f ->
  gives (inverse fits as_int A) (fun '(M, d) => exists g, is_mx M n n g /\
     (d = 0%Z /\ det n f = 0%Z \/ det n f <> 0%Z /\ least_denominator n f d /\ is_inverse n f g d))
    (fun er => er = Thrown /\ (exists d, least_denominator n f d /\ (2147483648 <= d)%Z) \/ overflows fits er).
Proof. exact (inverse_ok fits as_int). Qed.
Print Assumptions C48_inverse.
Theorem C48_inverse_Z fits as_int : (forall z, as_int z = z) -> forall A n f, is_mx A n n f ->
  gives (inverse_Z fits as_int A) (fun M => exists g, is_mx M n n g /\ inverses n f g)
    (fun er => er = Thrown /\ ~ unimodular n f \/ overflows fits er).
Proof. exact (inverse_Z_ok fits as_int). Qed.
Print Assumptions C48_inverse_Z.
Example C48_inverse_ex : inverse int32 idZ (mx 2 [[2; -1]; [-1; 2]]%Z) = Ok (mx 2 [[2; 1]; [1; 2]], 3)%Z /\
  inverse int32 idZ (mx 2 [[2; -1]; [-4; 2]]%Z) = Ok (mx 2 [[0; 0]; [0; 0]], 0)%Z /\
  inverse_Z int32 idZ (mx 2 [[2; -1]; [-1; 1]]%Z) = Ok (mx 2 [[1; 1]; [1; 2]])%Z /\
  inverse_Z int32 idZ (mx 2 [[2; -1]; [-1; 2]]%Z) = Fail Thrown.
Proof. vm_compute. auto. Qed.

(** * C49: adapted and Smith bases *)
Theorem C49_adapted_basis fits as_int : (forall z, as_int z = z) -> forall m n f M, is_mx M m n f ->
  gives (adapted_basis fits as_int M) (fun '(result, diagonal) => exists r dd beta,
     is_vec diagonal r dd /\ is_mx result m m beta /\ r <= m /\ r <= n /\ (forall b, b < r -> (0 < dd b)%Z) /\
     unimodular m beta /\ same_span m n f r (fun a b => dd b * beta a b)%Z) (overflows fits).
Proof.
  intros Hint m n f M HM. eapply gives_mono; [apply (adapted_basis_ok fits as_int Hint m n f M HM)|].
  intros [result diagonal] (r & dd & beta & gamma & H1 & H2 & H3 & H4 & H5 & H6 & H7 & H8). exists r, dd, beta.
  pose proof (span_ok m n f gamma r _ H4 H7 H8). auto 10.
Qed.
Print Assumptions C49_adapted_basis.
(* the lcm of two diagonal entries must fit a 64-bit word, which it does if the entries are of type int *)
Theorem C49_Smith_basis fits as_int : (forall z, as_int z = z) -> (forall z, fits z = true -> (-2147483648 <= z < 2147483648)%Z) ->
  forall m n f M, is_mx M m n f ->
  gives (Smith_basis fits as_int M) (fun '(result, diagonal) => exists r dd beta,
     is_vec diagonal r dd /\ is_mx result m m beta /\ r <= m /\ r <= n /\ (forall b, b < r -> (0 < dd b)%Z) /\
     (forall b, S b < r -> (dd b | dd (S b))%Z) /\
     unimodular m beta /\ same_span m n f r (fun a b => dd b * beta a b)%Z) (overflows fits).
Proof.
  intros Hint Hf m n f M HM. eapply gives_mono; [apply (Smith_basis_ok fits as_int Hint Hf m n f M HM)|].
  intros [result diagonal] (r & dd & beta & gamma & H1 & H2 & H3 & H4 & H5 & H6 & H7 & H8 & H9). exists r, dd, beta.
  pose proof (span_ok m n f gamma r _ H4 H8 H9). auto 10.
Qed.
Print Assumptions C49_Smith_basis.
Example C49_basis_ex : (forall z, int32 z = true -> (-2147483648 <= z < 2147483648)%Z) /\
  adapted_basis int32 idZ (mx 3 [[2; 4; -6]; [0; 3; 5]; [4; 2; 2]]%Z) = Ok (mx 3 [[1; 0; 0]; [0; 1; 0]; [2; -26; 1]], [2; 1; 72])%Z /\
  Smith_basis int32 idZ (mx 3 [[2; 4; -6]; [0; 3; 5]; [4; 2; 2]]%Z) = Ok (mx 3 [[0; -1; 0]; [1; 1; 0]; [-26; -28; 1]], [1; 2; 72])%Z /\
  Smith_basis int32 idZ (mx 2 [[4; 0]; [0; 6]]%Z) = Ok (mx 2 [[4; -1]; [-3; 1]], [2; 12])%Z.
Proof.
  split; [intros z H; unfold int32 in H; apply andb_true_iff in H; rewrite !Z.leb_le in H; lia|]. vm_compute. auto.
Qed.

(** * C60: clearing an entry with two columns or two rows *)
Theorem C60_column_clear fits m n f i j k : i < m -> j < n -> k < n -> j <> k ->
  forall M, is_mx M m n f -> (0 < f i k)%Z ->
  gives (column_clear fits M i j k) (fun '(M', neg) => exists g w, is_mx M' m n g /\ feq m n g (fmul n f w) /\ det n w = sgn neg /\
    (forall a b, a < m -> b < n -> b <> j -> b <> k -> g a b = f a b) /\ g i j = 0%Z /\ g i k = Z.gcd (f i j) (f i k)) (overflows fits).
Proof. exact (column_clear_ok fits m n f i j k). Qed.
Print Assumptions C60_column_clear.
Theorem C60_row_clear fits m n f i j k : i < m -> j < n -> k < m -> i <> k ->
  forall M, is_mx M m n f -> (0 < f k j)%Z ->
  gives (row_clear fits M i j k) (fun '(M', neg) => exists g w, is_mx M' m n g /\ feq m n g (fmul m w f) /\ det m w = sgn neg /\
    (forall a b, a < m -> b < n -> a <> i -> a <> k -> g a b = f a b) /\ g i j = 0%Z /\ g k j = Z.gcd (f i j) (f k j)) (overflows fits).
Proof. exact (row_clear_ok fits m n f i j k). Qed.
Print Assumptions C60_row_clear.
Example C60_clear_ex : is_mx (mx 3 [[-6; 1; 4]; [0; 3; 5]]%Z) 2 3 (ent [[-6; 1; 4]; [0; 3; 5]]%Z) /\
  column_clear int32 (mx 3 [[-6; 1; 4]; [0; 3; 5]]%Z) 0 0 2 = Ok (mx 3 [[0; 1; 2]; [15; 3; -5]]%Z, false) /\
  row_clear int32 (mx 2 [[-6; 1]; [0; 3]; [4; 5]]%Z) 0 0 2 = Ok (mx 2 [[0; 17]; [0; 3]; [2; -6]]%Z, false).
Proof. split; [apply (is_mx_mx 3); reflexivity|]. vm_compute. auto. Qed.
